(* Facts about the model of randomx.py: concatenation, broadcasting over the last
   axis, the rejection loop, reshape, the elements of rotation3. *)
From Coq Require Import List Arith ZArith Bool Lia Reals Lra.
From Verif Require Import Num PyBase NdArray NdLemmas RandomX.
Import ListNotations.
Open Scope R_scope.
Open Scope res_scope.

Lemma shape_eqb_refl s : shape_eqb s s = true.
Proof. unfold shape_eqb. destruct (list_eq_dec Nat.eq_dec s s); congruence. Qed.
Lemma cat_last_ok a b s la lb : shp a = s ++ [la] -> shp b = s ++ [lb] ->
  exists c, cat_last a b = Ok c /\ shp c = s ++ [la + lb]%nat /\
    forall idx j, get c (idx ++ [j]) =
      if (j <? la)%nat then get a (idx ++ [j]) else get b (idx ++ [j - la]%nat).
Proof.
  intros Ha Hb. unfold cat_last. rewrite Ha, Hb, !rev_app_distr. cbn [rev app].
  rewrite shape_eqb_refl. eexists. split; [reflexivity|]. cbn [shp get].
  split; [now rewrite rev_involutive|]. intros idx j.
  rewrite last_last, removelast_last. reflexivity.
Qed.
Lemma cat_first_ok a b s la lb : shp a = la :: s -> shp b = lb :: s ->
  exists c, cat_first a b = Ok c /\ shp c = (la + lb)%nat :: s /\
    forall idx j, get c (j :: idx) =
      if (j <? la)%nat then get a (j :: idx) else get b ((j - la)%nat :: idx).
Proof.
  intros Ha Hb. unfold cat_first. rewrite Ha, Hb.
  rewrite shape_eqb_refl. eexists. split; [reflexivity|]. cbn [shp get].
  split; [reflexivity|]. intros idx j. reflexivity.
Qed.

Lemma zipw_app {A B C} (f : A -> B -> C) l1 l2 m1 m2 : length l1 = length m1 ->
  zipw f (l1 ++ l2) (m1 ++ m2) = zipw f l1 m1 ++ zipw f l2 m2.
Proof.
  revert m1; induction l1 as [|a l1 IH]; intros [|b m1] H; cbn in *; try lia; auto.
  f_equal. apply IH. lia.
Qed.
Lemma bidx_last s idx e j : inb idx s ->
  bidx (s ++ [e]) (idx ++ [j]) = idx ++ [if (e =? 1)%nat then 0%nat else j].
Proof.
  intros H. unfold bidx. rewrite !app_length, (inb_length _ _ H), Nat.sub_diag. cbn [skipn].
  rewrite zipw_app by (symmetry; apply (inb_length _ _ H)). cbn [zipw]. f_equal.
  pose proof (bidx_self _ _ H) as E. unfold bidx in E.
  rewrite (inb_length _ _ H), Nat.sub_diag in E. exact E.
Qed.
Lemma brev_app_refl s d t u : brev [d] [t] = Some [u] -> brev (d :: s) (t :: s) = Some (u :: s).
Proof.
  cbn. destruct (bdim d t); [|discriminate]. intros H. inversion H; subst.
  rewrite brev_refl. reflexivity.
Qed.
Lemma bshape_last1 s d : bshape (s ++ [1%nat]) (s ++ [d]) = Some (s ++ [d]).
Proof.
  unfold bshape. rewrite !rev_app_distr. cbn [rev app].
  rewrite (brev_app_refl (rev s) 1 d d).
  - cbn [option_map rev]. now rewrite rev_involutive.
  - cbn. unfold bdim. destruct (Nat.eqb_spec 1 d); [subst|]; reflexivity.
Qed.
(* an array with a trailing axis of length 1 against one with a trailing axis *)
Lemma map2_last1 f (a b : nd R) s d : shp a = s ++ [1%nat] -> shp b = s ++ [d] ->
  exists c, nd_map2 f a b = Ok c /\ shp c = s ++ [d] /\
    forall idx j, inb idx s -> (j < d)%nat ->
      get c (idx ++ [j]) = f (get a (idx ++ [0%nat])) (get b (idx ++ [j])) :> R.
Proof.
  intros Ha Hb. unfold nd_map2. rewrite Ha, Hb, bshape_last1.
  eexists. split; [reflexivity|]. split; [reflexivity|]. intros idx j Hi Hj.
  cbn [get]. unfold bget. rewrite Ha, Hb, !bidx_last by auto. cbn [Nat.eqb].
  replace (if (d =? 1)%nat then 0%nat else j) with j; [reflexivity|].
  destruct (Nat.eqb_spec d 1); lia.
Qed.
Lemma map2_1last f (a b : nd R) s d : shp a = s ++ [d] -> shp b = s ++ [1%nat] ->
  exists c, nd_map2 f a b = Ok c /\ shp c = s ++ [d] /\
    forall idx j, inb idx s -> (j < d)%nat ->
      get c (idx ++ [j]) = f (get a (idx ++ [j])) (get b (idx ++ [0%nat])) :> R.
Proof.
  intros Ha Hb. unfold nd_map2. rewrite Ha, Hb, bshape_comm, bshape_last1.
  eexists. split; [reflexivity|]. split; [reflexivity|]. intros idx j Hi Hj.
  cbn [get]. unfold bget. rewrite Ha, Hb, !bidx_last by auto. cbn [Nat.eqb].
  replace (if (d =? 1)%nat then 0%nat else j) with j; [reflexivity|].
  destruct (Nat.eqb_spec d 1); lia.
Qed.
Lemma inb_snoc idx s j d : inb idx s -> (j < d)%nat -> inb (idx ++ [j]) (s ++ [d]).
Proof. intros H Hj. apply Forall2_app; auto. Qed.
Lemma inb_snoc_inv k s d : inb k (s ++ [d]) -> exists idx j, k = idx ++ [j] /\ inb idx s /\ (j < d)%nat.
Proof.
  intros H. apply Forall2_app_inv_r in H. destruct H as (l1 & l2 & H1 & H2 & ->).
  inversion H2; subst. inversion H5; subst. exists l1, x. auto.
Qed.

Lemma neg_dim_app s t : neg_dim (s ++ t) = neg_dim s || neg_dim t.
Proof. apply existsb_app. Qed.
Lemma dims_app s t : dims (s ++ t) = dims s ++ dims t.
Proof. apply map_app. Qed.

(* reshape of an array of n rows to s ++ [d]: the point at idx is row ravel idx *)
Lemma ravel_snoc s idx d j : inb idx s -> ravel (s ++ [d]) (idx ++ [j]) = (ravel s idx * d + j)%nat.
Proof.
  induction 1 as [|x y l l' H F IH]; [cbn; lia|].
  cbn [app ravel]. rewrite IH.
  assert (E : size (l' ++ [d]) = (size l' * d)%nat).
  { clear. unfold size. induction l' as [|a l' IH]; cbn; [lia|]. rewrite IH. lia. }
  rewrite E. lia.
Qed.
Lemma size_snoc s d : size (s ++ [d]) = (size s * d)%nat.
Proof. unfold size. induction s as [|a s IH]; cbn; [lia|]. rewrite IH. lia. Qed.
Lemma size_dims s : neg_dim s = false -> Z.of_nat (size (dims s)) = zprod s.
Proof.
  induction s as [|a s IH]; [reflexivity|]. cbn [neg_dim existsb]. intros H.
  apply orb_false_iff in H. destruct H as [Ha H]. apply Z.ltb_ge in Ha.
  unfold dims, size, zprod. cbn [map fold_right]. fold (dims s). fold (size (dims s)). fold (zprod s).
  rewrite Nat2Z.inj_mul, IH, Z2Nat.id by auto. reflexivity.
Qed.
Lemma finish_ok d s p : (0 < d)%nat -> neg_dim s = false -> (zprod s <= Z.of_nat (length p))%Z ->
  exists a, finish d s p = Ok a /\ shp a = dims s ++ [d] /\
    forall idx j, inb idx (dims s) -> (j < d)%nat ->
      get a (idx ++ [j]) = nth j (nth (ravel (dims s) idx) p []) 0 /\
      (ravel (dims s) idx < length p)%nat.
Proof.
  intros Hd Hn Hl. unfold finish. rewrite Hn. pose proof (size_dims s Hn) as Hs.
  assert (Hs' : Z.to_nat (zprod s) = size (dims s)) by lia.
  unfold reshape, rows_nd. cbn [shp]. rewrite Hs', size_snoc, firstn_length.
  replace (Nat.min (size (dims s)) (length p)) with (size (dims s)) by lia.
  cbn [size fold_right]. unfold size at 2 3. cbn [fold_right]. rewrite Nat.mul_1_r, Nat.eqb_refl.
  eexists. split; [reflexivity|]. split; [reflexivity|]. intros idx j Hi Hj.
  cbn [get]. rewrite ravel_snoc by auto.
  pose proof (ravel_lt _ _ Hi) as Hr.
  replace (ravel (dims s) idx * d + j)%nat
    with (ravel [size (dims s); d] [ravel (dims s) idx; j]) by (cbn; lia).
  rewrite unravel_ravel by (repeat constructor; auto). cbn [nth].
  split; [|lia]. f_equal.
  rewrite <- (firstn_skipn (size (dims s)) p) at 2.
  rewrite app_nth1; [reflexivity|]. rewrite firstn_length. lia.
Qed.

(* The rejection loop.  [passes k] is the list of points accepted by the first k
   passes, each asking for [passm] points as long as fewer than n were found. *)
Fixpoint passes (rnd : src) (fac : R) (d : nat) (n : Z) (k : nat) : list (list R) :=
  match k with
  | O => []
  | S k' =>
    let p := passes rnd fac d n k' in
    if (n <=? Z.of_nat (length p))%Z then p
    else let m := passm fac (n - Z.of_nat (length p)) in p ++ accepted d m (rnd k' [m; d])
  end.
Lemma reject_passes rnd fac d n fuel k :
  reject rnd fac d fuel k (n - Z.of_nat (length (passes rnd fac d n k))) (passes rnd fac d n k) =
  if (n <=? Z.of_nat (length (passes rnd fac d n (k + fuel))))%Z
  then Some (passes rnd fac d n (k + fuel)) else None.
Proof.
  revert k; induction fuel as [|fuel IH]; intros k; cbn [reject].
  - rewrite Nat.add_0_r. rewrite Z.gtb_ltb.
    destruct (Z.ltb_spec 0 (n - Z.of_nat (length (passes rnd fac d n k))));
    destruct (Z.leb_spec n (Z.of_nat (length (passes rnd fac d n k)))); try lia; reflexivity.
  - rewrite Z.gtb_ltb.
    destruct (Z.ltb_spec 0 (n - Z.of_nat (length (passes rnd fac d n k)))).
    + replace (k + S fuel)%nat with (S k + fuel)%nat by lia. rewrite <- IH.
      cbn [passes].
      destruct (Z.leb_spec n (Z.of_nat (length (passes rnd fac d n k)))); [lia|].
      f_equal. rewrite app_length. lia.
    + assert (E : forall f, passes rnd fac d n (k + f) = passes rnd fac d n k).
      { induction f as [|f IHf]; [now rewrite Nat.add_0_r|].
        rewrite Nat.add_succ_r. cbn [passes]. rewrite IHf.
        destruct (Z.leb_spec n (Z.of_nat (length (passes rnd fac d n k)))); [reflexivity|lia]. }
      rewrite E.
      destruct (Z.leb_spec n (Z.of_nat (length (passes rnd fac d n k)))); [reflexivity|lia].
Qed.
Lemma reject_eq rnd fac d n fuel :
  reject rnd fac d fuel 0 n [] =
  if (n <=? Z.of_nat (length (passes rnd fac d n fuel)))%Z
  then Some (passes rnd fac d n fuel) else None.
Proof.
  pose proof (reject_passes rnd fac d n fuel 0) as H. rewrite Nat.add_0_l in H. rewrite <- H.
  cbn [passes length]. f_equal. lia.
Qed.
(* every accepted point is a draw of norm < 1 *)
Lemma accepted_in d m q p : In p (accepted d m q) ->
  norm2 p < 1 /\ exists i, (i < m)%nat /\ p = row_of d q i.
Proof.
  unfold accepted. rewrite filter_In, in_map_iff. intros [(i & <- & Hi) H].
  apply in_seq in Hi. split; [destruct (Rltb_spec (norm2 (row_of d q i)) 1); [auto|discriminate]|].
  exists i. split; auto. lia.
Qed.
Lemma passes_in rnd fac d n k p : In p (passes rnd fac d n k) ->
  norm2 p < 1 /\ exists k' m i, (k' < k)%nat /\ (i < m)%nat /\ p = row_of d (rnd k' [m; d]) i.
Proof.
  induction k as [|k IH]; cbn [passes]; [intros []|].
  destruct (n <=? _)%Z.
  - intros H. destruct (IH H) as (? & k' & m & i & ? & ? & ?). split; auto.
    exists k', m, i. repeat split; auto; lia.
  - rewrite in_app_iff. intros [H | H].
    + destruct (IH H) as (? & k' & m & i & ? & ? & ?). split; auto.
      exists k', m, i. repeat split; auto; lia.
    + apply accepted_in in H. destruct H as (? & i & ? & ?). split; auto.
      eexists k, _, i. repeat split; eauto.
Qed.
(* if every pass that is made accepts a point, n passes are enough *)
Lemma passes_progress rnd fac d n k :
  (forall k, (Z.of_nat (length (passes rnd fac d n k)) < n)%Z ->
     let m := passm fac (n - Z.of_nat (length (passes rnd fac d n k))) in
     accepted d m (rnd k [m; d]) <> []) ->
  (Z.min n (Z.of_nat k) <= Z.of_nat (length (passes rnd fac d n k)))%Z.
Proof.
  intros H. induction k as [|k IH]; [cbn; lia|]. cbn [passes].
  destruct (Z.leb_spec n (Z.of_nat (length (passes rnd fac d n k)))); [lia|].
  specialize (H k ltac:(auto)). cbn zeta in H.
  destruct (accepted _ _ _); [congruence|]. rewrite app_length. cbn [length]. lia.
Qed.

(* a pass asks for at least as many points as are missing *)
Lemma passm_ge fac n : 1 <= fac -> (0 <= n)%Z -> (Z.to_nat n <= passm fac n)%nat.
Proof.
  intros Hf Hn. unfold passm. apply Z2Nat.inj_le; auto.
  - pose proof (base_Int_part ((IZR n + 5 * sqrt (IZR n)) * fac)) as [_ H].
    apply IZR_le in Hn. pose proof (sqrt_pos (IZR n)).
    assert (IZR n <= (IZR n + 5 * sqrt (IZR n)) * fac) by nra.
    apply le_IZR. assert (-1 < IZR (Int_part ((IZR n + 5 * sqrt (IZR n)) * fac))) by lra.
    apply lt_IZR in H2. apply IZR_le. lia.
  - pose proof (base_Int_part ((IZR n + 5 * sqrt (IZR n)) * fac)) as [_ H].
    apply IZR_le in Hn. pose proof (sqrt_pos (IZR n)).
    assert (IZR n <= (IZR n + 5 * sqrt (IZR n)) * fac) by nra.
    assert (IZR n - 1 < IZR (Int_part ((IZR n + 5 * sqrt (IZR n)) * fac))) by lra.
    rewrite <- minus_IZR in H2. apply lt_IZR in H2. lia.
Qed.

(* leading axes: an array of shape s against one of shape l ++ s *)
Lemma bto_rev_app s t : bto_rev s (s ++ t) = true.
Proof. induction s as [|a s IH]; cbn; auto. rewrite Nat.eqb_refl, IH. reflexivity. Qed.
Lemma bto_lead l s : bto s (l ++ s) = true.
Proof. unfold bto. rewrite rev_app_distr. apply bto_rev_app. Qed.
Lemma bidx_lead l s idx : inb idx s -> bidx s (l ++ idx) = idx.
Proof.
  intros H. unfold bidx. rewrite app_length, <- (inb_length _ _ H).
  replace (length l + length idx - length idx)%nat with (length l) by lia.
  rewrite skipn_app, skipn_all, Nat.sub_diag. cbn [skipn app].
  pose proof (bidx_self _ _ H) as E. unfold bidx in E.
  rewrite (inb_length _ _ H), Nat.sub_diag in E. exact E.
Qed.
Lemma map2_lead f (a b : nd R) l s : shp a = l ++ s -> shp b = s ->
  exists c, nd_map2 f a b = Ok c /\ shp c = l ++ s /\
    forall i idx, inb i l -> inb idx s -> get c (i ++ idx) = f (get a (i ++ idx)) (get b idx) :> R.
Proof.
  intros Ha Hb. unfold nd_map2. rewrite Ha, Hb.
  rewrite (bshape_of_bto s (l ++ s)) by apply bto_lead.
  eexists. split; [reflexivity|]. split; [reflexivity|]. intros i idx Hi Hx. cbn [get].
  unfold bget. rewrite Ha, Hb, (bidx_lead i s idx) by auto. rewrite bidx_self; auto.
  apply Forall2_app; auto.
Qed.
Lemma map2_lead' f (a b : nd R) l s : shp a = s -> shp b = l ++ s ->
  exists c, nd_map2 f a b = Ok c /\ shp c = l ++ s /\
    forall i idx, inb i l -> inb idx s -> get c (i ++ idx) = f (get a idx) (get b (i ++ idx)) :> R.
Proof.
  intros Ha Hb. unfold nd_map2. rewrite Ha, Hb, bshape_comm.
  rewrite (bshape_of_bto s (l ++ s)) by apply bto_lead.
  eexists. split; [reflexivity|]. split; [reflexivity|]. intros i idx Hi Hx. cbn [get].
  unfold bget. rewrite Ha, Hb, (bidx_lead i s idx) by auto. rewrite bidx_self; auto.
  apply Forall2_app; auto.
Qed.
Lemma map2_eq f (a b : nd R) s : shp a = s -> shp b = s ->
  exists c, nd_map2 f a b = Ok c /\ shp c = s /\
    forall idx, inb idx s -> get c idx = f (get a idx) (get b idx) :> R.
Proof.
  intros Ha Hb. destruct (map2_lead f a b [] s Ha Hb) as (c & E & S & G).
  exists c. split; [exact E|]. split; [exact S|]. intros idx H. exact (G [] idx (Forall2_nil _) H).
Qed.
