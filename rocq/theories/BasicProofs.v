(* Lemmas about the model of basic.py. *)
From Coq Require Import String List Arith ZArith Lia Bool Reals Lra.
From Verif Require Import Num PyBase NdArray NdLemmas Basic.
Import ListNotations.
Local Open Scope res_scope.

Section Gen.
  Context {K : Type} {NK : Num K}.

  (* --- span --------------------------------------------------------------- *)
  Lemma cums_ext (f g : nat -> K) j : (forall i, i <= j -> f i = g i) -> cums f j = cums g j.
  Proof.
    induction j; cbn; intros H; [apply H; lia|].
    rewrite IHj by (intros; apply H; lia). rewrite H by lia. reflexivity.
  Qed.
  Definition bz (a : nd K) (idx : list nat) : K := nadd (bget a idx) n0.
  Lemma span_ok (start stop : nd K) m axis k S0 :
    bshape (shp start) (shp stop) = Some S0 ->
    py_index (S (length S0)) axis = Some k ->
    exists r, span start stop (S m) axis = Ok r /\ shp r = insert_at k (S m) S0 /\
      forall idx i, inb idx S0 -> i < S m ->
        get r (insert_at k i idx) =
          if i =? m then bz stop idx
          else match i with
               | O => bz start idx
               | S j => nadd (bz start idx)
                          (cums (fun _ => ndiv (nsub (bz stop idx) (bz start idx)) (nofnat m)) j)
               end.
  Proof.
    intros HS Hk. pose proof (py_index_lt _ _ _ Hk) as Hk'. 
    assert (Hkl : k <= length S0) by lia. clear Hk'.
    destruct (bshape_bto _ _ _ HS) as [B1 B2].
    unfold span, full. unfold nd_map2 at 1. rewrite HS. cbn [bind shp].
    unfold nd_map2 at 1. cbn [shp full].
    rewrite (bshape_comm (shp start)), (bshape_of_bto _ _ B1). cbn [bind].
    unfold nd_map2 at 1. cbn [shp full].
    rewrite (bshape_comm (shp stop)), (bshape_of_bto _ _ B2). cbn [bind shp].
    rewrite Hk. cbn [of_opt bind].
    set (A := Nd S0 (fun idx => nadd (bget start idx) (bget (Nd S0 (fun _ => n0)) idx))).
    set (B := Nd S0 (fun idx => nadd (bget stop idx) (bget (Nd S0 (fun _ => n0)) idx))).
    destruct (reshape_insert k A Hkl) as (A' & EA & SA & GA). cbn [shp A] in EA. rewrite EA. cbn [bind].
    destruct (reshape_insert k B Hkl) as (B' & EB & SB & GB). cbn [shp B] in EB. rewrite EB. cbn [bind].
    cbn [shp A] in SA, GA. cbn [shp B] in SB, GB.
    assert (GA' : forall idx, inb idx S0 -> get A' (insert_at k 0 idx) = bz start idx).
    { intros. rewrite GA by auto. reflexivity. }
    assert (GB' : forall idx, inb idx S0 -> get B' (insert_at k 0 idx) = bz stop idx).
    { intros. rewrite GB by auto. reflexivity. }
    clear GA GB EA EB.
    rewrite (nd_map2_same _ _ _ (insert_at k 1 S0)) by auto. cbn [bind].
    set (D := Nd (insert_at k 1 S0) _).
    assert (GD : forall idx, inb idx S0 -> get D (insert_at k 0 idx) =
              ndiv (nsub (bz stop idx) (bz start idx)) (nofnat m)).
    { intros idx Hi. cbn [D get]. rewrite !bget_self
        by (rewrite ?SA, ?SB; apply inb_insert; auto). rewrite GA', GB' by auto. reflexivity. }
    assert (N1 : nth k (insert_at k 1 S0) 0 = 1) by (apply nth_insert_eq; auto).
    set (s := nd_repeat (S m) k A').
    assert (Ss : shp s = insert_at k (S m) S0).
    { cbn [s shp nd_repeat]. rewrite SA, N1, upd_insert by auto. f_equal. lia. }
    assert (Gs : forall idx i, inb idx S0 -> i < S m -> get s (insert_at k i idx) = bz start idx).
    { intros idx i Hi Him. assert (Hl := inb_length _ _ Hi). cbn [s get nd_repeat].
      rewrite nth_insert_eq, upd_insert, Nat.div_small by lia. apply GA'; auto. }
    set (ds := nd_repeat m k D).
    assert (Sds : shp ds = insert_at k m S0).
    { cbn [ds shp nd_repeat D]. rewrite N1, upd_insert by auto. f_equal. lia. }
    assert (Gds : forall idx i, inb idx S0 -> i < m -> get ds (insert_at k i idx) =
              ndiv (nsub (bz stop idx) (bz start idx)) (nofnat m)).
    { intros idx i Hi Him. assert (Hl := inb_length _ _ Hi).
      rewrite <- GD by auto. cbn [ds get nd_repeat].
      rewrite nth_insert_eq, upd_insert, Nat.div_small by lia. reflexivity. }
    rewrite (nd_map2_same _ _ _ (insert_at k m S0)).
    2:{ cbn [nd_slice shp]. rewrite Ss, upd_insert by auto. reflexivity. }
    2:{ cbn [nd_cumsum shp]. exact Sds. }
    cbn [bind]. set (s1 := Nd (insert_at k m S0) _).
    assert (Gs1 : forall idx i, inb idx S0 -> i < m -> get s1 (insert_at k i idx) =
              nadd (bz start idx) (cums (fun _ => ndiv (nsub (bz stop idx) (bz start idx)) (nofnat m)) i)).
    { intros idx i Hi Him. assert (Hl := inb_length _ _ Hi). cbn [s1 get].
      rewrite !bget_self.
      2:{ cbn [nd_cumsum shp]. rewrite Sds. apply inb_insert; auto. }
      2:{ cbn [nd_slice shp]. rewrite Ss, upd_insert by auto. apply inb_insert; auto. }
      cbn [nd_slice nd_cumsum get]. rewrite nth_insert_eq, upd_insert by lia.
      rewrite Gs by (auto; lia). f_equal. apply cums_ext. intros j Hj.
      rewrite upd_insert by lia. apply Gds; auto; lia. }
    unfold nd_setslice at 1. cbn [s1 shp]. rewrite Ss, upd_insert, bto_refl' by auto.
    cbn [bind]. unfold nd_setslice. cbn [shp]. rewrite upd_insert, SB, bto_refl' by auto.
    eexists. split; [reflexivity|]. split; [reflexivity|].
    intros idx i Hi Him. assert (Hl := inb_length _ _ Hi). cbn [get].
    rewrite nth_insert_eq by lia.
    destruct (Nat.eqb_spec i m) as [->|Hne].
    - rewrite Nat.leb_refl. replace (m <? m + 1) with true by (symmetry; apply Nat.ltb_lt; lia).
      cbn [andb]. rewrite upd_insert, Nat.sub_diag by lia.
      rewrite bget_self by (rewrite SB; apply inb_insert; auto). apply GB'; auto.
    - replace (m <=? i) with false by (symmetry; apply Nat.leb_gt; lia). cbn [andb].
      destruct i as [|j].
      + cbn [Nat.leb andb]. apply Gs; auto; lia.
      + replace (S j <? 1 + m) with true by (symmetry; apply Nat.ltb_lt; lia).
        cbn [Nat.leb andb]. rewrite upd_insert by lia.
        rewrite bget_self by (cbn [shp]; apply inb_insert; auto; lia).
        replace (S j - 1) with j by lia. apply (Gs1 idx j); auto; lia.
  Qed.
  Lemma span_mismatch (start stop : nd K) num axis :
    bshape (shp start) (shp stop) = None -> span start stop num axis = Err ValueError.
  Proof. intros H. unfold span, nd_map2. rewrite H. reflexivity. Qed.
  Lemma span_zero (start stop : nd K) axis : span start stop 0 axis = Err ValueError.
  Proof.
    unfold span. destruct (nd_map2 nadd start stop) as [s|] eqn:E; cbn [bind].
    2:{ unfold nd_map2 in E. destruct (bshape _ _); congruence. }
    unfold nd_map2 in E. destruct (bshape (shp start) (shp stop)) as [S0|] eqn:HS; [|discriminate].
    inv E. cbn [shp]. destruct (bshape_bto _ _ _ HS) as [B1 B2].
    unfold nd_map2. cbn [shp full].
    rewrite (bshape_comm (shp start)), (bshape_of_bto _ _ B1). cbn [bind].
    rewrite (bshape_comm (shp stop)), (bshape_of_bto _ _ B2). cbn [bind].
    destruct (py_index _ axis); cbn [of_opt bind]; auto.
    unfold reshape. cbn [shp]. destruct (_ =? _); cbn; auto.
  Qed.

  (* --- cat_ and a_ --------------------------------------------------------- *)
  Lemma cat_fill_ok k (l : list (nat * nd K)) i result :
    k < length (shp result) ->
    (forall di a, In (di, a) l -> bto (shp a) (upd k di (shp result)) = true) ->
    exists r, cat_fill k i l result = Ok r /\ shp r = shp result /\
      (forall idx, nth k idx 0 < i -> get r idx = get result idx) /\
      forall l1 di a l2 idx, l = l1 ++ (di, a) :: l2 ->
        length idx = length (shp result) -> nth k idx 0 < di ->
        get r (upd k (i + sumn (map fst l1) + nth k idx 0) idx) = bget a idx.
  Proof.
    intros Hk. revert i result Hk; induction l as [|[di a] l IH]; intros i result Hk H.
    - exists result. cbn. repeat split; auto. intros [|? ?]; cbn; discriminate.
    - cbn [cat_fill]. unfold nd_setslice at 1. rewrite (H di a) by (left; reflexivity). cbn [bind].
      edestruct (IH (i + di)) as (r & E & Sr & G1 & G2); [| |rewrite E; exists r; repeat split].
      + exact Hk.
      + cbn [shp]. intros; apply H; right; auto.
      + exact Sr.
      + intros idx Hi. rewrite G1 by lia. cbn [get].
        replace (i <=? nth k idx 0) with false by (symmetry; apply Nat.leb_gt; lia). reflexivity.
      + intros l1 d' a' l2 idx El Hl Hi. destruct l1 as [|[d1 a1] l1]; cbn [app] in El; inv El.
        * cbn [map sumn fold_right]. rewrite Nat.add_0_r. 
          rewrite G1 by (rewrite nth_upd_eq by lia; lia). cbn [get].
          rewrite nth_upd_eq by lia.
          replace (i <=? i + nth k idx 0) with true by (symmetry; apply Nat.leb_le; lia).
          replace (i + nth k idx 0 <? i + d') with true by (symmetry; apply Nat.ltb_lt; lia).
          cbn [andb]. f_equal. replace (i + nth k idx 0 - i) with (nth k idx 0) by lia.
          apply nth_ext with (d:=0) (d':=0); [rewrite !upd_length; auto|].
          intros j _. destruct (Nat.eq_dec j k); [subst; rewrite nth_upd_eq; auto; rewrite upd_length; lia|].
          rewrite !nth_upd_neq by auto. reflexivity.
        * cbn [map fst sumn fold_right]. fold (sumn (map fst l1)).
          replace (i + (d1 + sumn (map fst l1)) + nth k idx 0)
            with (i + d1 + sumn (map fst l1) + nth k idx 0) by lia.
          eapply G2; eauto.
  Qed.
  Lemma cat_fill_err k (l : list (nat * nd K)) i result :
    (exists di a, In (di, a) l /\ bto (shp a) (upd k di (shp result)) = false) ->
    cat_fill k i l result = Err ValueError.
  Proof.
    revert i result; induction l as [|[di a] l IH]; intros i result (d' & a' & Hi & Hb); [destruct Hi|].
    cbn [cat_fill]. unfold nd_setslice.
    destruct (bto (shp a) (upd k di (shp result))) eqn:E; [|reflexivity]. cbn [bind].
    apply IH. destruct Hi as [Hi|Hi]; [congruence|]. exists d', a'. auto.
  Qed.
  Lemma stack_fill_ok k (l : list (nd K)) i result :
    (forall a, In a l -> bto (shp a) (remove_at k (shp result)) = true) ->
    exists r, stack_fill k i l result = Ok r /\ shp r = shp result /\
      (forall idx, nth k idx 0 < i -> get r idx = get result idx) /\
      forall j d idx, j < length l -> k <= length idx ->
        get r (insert_at k (i + j) idx) = bget (nth j l d) idx.
  Proof.
    revert i result; induction l as [|a l IH]; intros i result H.
    - exists result. cbn. repeat split; auto. intros; lia.
    - cbn [stack_fill]. unfold nd_setitem at 1. rewrite H by (left; reflexivity). cbn [bind].
      edestruct (IH (S i)) as (r & E & Sr & G1 & G2); [|rewrite E; exists r; repeat split].
      + cbn [shp]. intros; apply H; right; auto.
      + exact Sr.
      + intros idx Hi. rewrite G1 by lia. cbn [get].
        replace (nth k idx 0 =? i) with false by (symmetry; apply Nat.eqb_neq; lia). reflexivity.
      + intros [|j] d idx Hj Hl.
        * rewrite Nat.add_0_r. rewrite G1 by (rewrite nth_insert_eq by lia; lia). cbn [get].
          rewrite nth_insert_eq, Nat.eqb_refl, remove_insert by lia. reflexivity.
        * replace (i + S j) with (S i + j) by lia. cbn in Hj. rewrite (G2 j d) by (auto; lia). reflexivity.
  Qed.
  Lemma stack_fill_err k (l : list (nd K)) i result :
    (exists a, In a l /\ bto (shp a) (remove_at k (shp result)) = false) ->
    stack_fill k i l result = Err ValueError.
  Proof.
    revert i result; induction l as [|a l IH]; intros i result (a' & Hi & Hb); [destruct Hi|].
    cbn [stack_fill]. unfold nd_setitem.
    destruct (bto (shp a) (remove_at k (shp result))) eqn:E; [|reflexivity]. cbn [bind].
    apply IH. destruct Hi as [Hi|Hi]; [congruence|]. exists a'. auto.
  Qed.
End Gen.

(* size of axis m of a shape padded on the left with ones to rank n *)
Definition adim (n : nat) (s : list nat) (m : nat) : nat :=
  if m <? n - length s then 1 else nth (m - (n - length s)) s 0.

Lemma adim_pad n s m : m < n -> nth m (pad1 n s) 0 = adim n s m.
Proof.
  intros H. unfold pad1, adim. destruct (Nat.ltb_spec m (n - length s)).
  - rewrite app_nth1 by (rewrite repeat_length; auto).
    rewrite (nth_indep _ 0 1) by (rewrite repeat_length; auto). apply nth_repeat.
  - rewrite app_nth2 by (rewrite repeat_length; auto). rewrite repeat_length. reflexivity.
Qed.
Lemma pad1_length n s : length s <= n -> length (pad1 n s) = n.
Proof. intros. unfold pad1. rewrite app_length, repeat_length. lia. Qed.
Lemma adim_dimr n s m : length s <= n -> m < n -> dimr s (n - 1 - m) = adim n s m.
Proof.
  intros Hs Hm. unfold dimr, adim. destruct (Nat.ltb_spec m (n - length s)).
  - rewrite nth_overflow; auto. rewrite rev_length. lia.
  - rewrite rev_nth by lia. rewrite (nth_indep _ 1 0) by lia. f_equal. lia.
Qed.
Lemma adim_full n s m : length s = n -> adim n s m = nth m s 0.
Proof. intros <-. unfold adim. rewrite Nat.sub_diag. cbn. rewrite Nat.sub_0_r. reflexivity. Qed.
Lemma bto_adim n s T : length s <= n -> length T = n ->
  (bto s T = true <-> forall m, m < n -> adim n s m = nth m T 0 \/ adim n s m = 1).
Proof.
  intros Hs HT. rewrite bto_iff. split.
  - intros [_ H] m Hm. destruct (Nat.lt_ge_cases m (n - length s)).
    + right. unfold adim. replace (m <? n - length s) with true by (symmetry; apply Nat.ltb_lt; lia). auto.
    + specialize (H (n - 1 - m)). rewrite !adim_dimr in H by lia.
      rewrite (adim_full n T) in H by auto. apply H. lia.
  - intros H. split; [lia|]. intros m Hm. specialize (H (n - 1 - m) ltac:(lia)).
    rewrite <- (adim_full n T), <- !adim_dimr in H by lia.
    replace (n - 1 - (n - 1 - m)) with m in H by lia. exact H.
Qed.
Lemma maxn_ge l x : In x l -> x <= maxn l.
Proof. induction l; cbn; [tauto|]. intros [->|H]; [lia|]. apply IHl in H. unfold maxn in H. lia. Qed.
Lemma maxn_lub l b : (forall x, In x l -> x <= b) -> maxn l <= b.
Proof.
  induction l; cbn; intros H; [lia|].
  pose proof (H a (or_introl eq_refl)).
  assert (maxn l <= b) by (apply IHl; intros; apply H; auto). unfold maxn in *. lia.
Qed.
Lemma max_shape_length n l : length (max_shape n l) = n.
Proof. unfold max_shape. rewrite map_length, seq_length. reflexivity. Qed.
Lemma max_shape_nth n l m : m < n -> nth m (max_shape n l) 0 = maxn (map (fun s => nth m s 0) l).
Proof.
  intros H. unfold max_shape.
  rewrite (nth_indep _ 0 (maxn (map (fun s => nth 0 s 0) l))) by (rewrite map_length, seq_length; auto).
  rewrite (map_nth (fun m => maxn (map (fun s => nth m s 0) l)) (seq 0 n) 0 m).
  rewrite seq_nth by auto. reflexivity.
Qed.
Lemma fold_max_le l b x : In x l \/ x <= b -> x <= fold_left Nat.max l b.
Proof.
  revert b; induction l as [|a l IH]; cbn; intros b [H|H]; try tauto; auto.
  - destruct H; [subst; apply IH; right; lia|apply IH; auto].
  - apply IH. right. lia.
Qed.

(* --- spanl ----------------------------------------------------------------- *)
Lemma bidx_cons s i idx : length s <= length idx -> bidx s (i :: idx) = bidx s idx.
Proof.
  intros H. unfold bidx. f_equal. cbn [length].
  replace (S (length idx) - length s) with (S (length idx - length s)) by lia. reflexivity.
Qed.
Lemma bidx_insert s k i idx : length s = length idx -> k <= length idx ->
  bidx (insert_at k 1 s) (insert_at k i idx) = insert_at k 0 (bidx s idx).
Proof.
  intros H Hk. unfold bidx. rewrite !insert_at_length, H, !Nat.sub_diag. cbn [skipn].
  revert k idx H Hk; induction s as [|d s IH]; intros k [|j idx] H Hk; cbn in *; try discriminate.
  - assert (k = 0) by lia. subst. reflexivity.
  - destruct k; cbn; auto. f_equal. apply IH; lia.
Qed.
Lemma bto_cons s n T : bto s T = true -> bto s (n :: T) = true.
Proof.
  rewrite !bto_iff. intros [H1 H2]. split; [cbn; lia|]. intros m Hm.
  specialize (H2 m Hm). unfold dimr in *. cbn [rev].
  rewrite (app_nth1 (rev T)) by (rewrite rev_length; lia). exact H2.
Qed.
Lemma bto_insert s T k n : length s = length T -> k <= length s -> bto s T = true ->
  bto (insert_at k 1 s) (insert_at k n T) = true.
Proof.
  intros HL Hk HB.
  rewrite (bto_adim (length s)) in HB by lia.
  rewrite (bto_adim (S (length s))) by (rewrite insert_at_length; lia).
  intros m Hm. rewrite adim_full by apply insert_at_length.
  assert (HB' : forall m, m < length s -> nth m s 0 = nth m T 0 \/ nth m s 0 = 1).
  { intros j Hj. specialize (HB j Hj). rewrite adim_full in HB by auto. exact HB. }
  clear HB. revert T k m HL Hk Hm HB'; induction s as [|d s IH]; intros [|e T] k m HL Hk Hm HB; cbn in *; try discriminate.
  - assert (k = 0) by lia. subst. cbn. destruct m; [auto|lia].
  - destruct k; cbn.
    + destruct m; [auto|]. apply (HB m); lia.
    + destruct m; [apply (HB 0); lia|]. apply IH; try lia. intros j Hj. apply (HB (S j)); lia.
Qed.
Lemma nd_any_false {A} (f : A -> bool) a :
  (forall idx, inb idx (shp a) -> f (get a idx) = false) -> nd_any f a = false.
Proof.
  intros H. unfold nd_any. destruct (existsb _ _) eqn:E; auto.
  apply existsb_exists in E as (k & Hk & E). apply in_seq in Hk.
  rewrite H in E; [discriminate|]. apply inb_unravel. lia.
Qed.
Lemma nd_any_true {A} (f : A -> bool) a idx :
  inb idx (shp a) -> f (get a idx) = true -> nd_any f a = true.
Proof.
  intros H E. unfold nd_any. apply existsb_exists. exists (ravel (shp a) idx). split.
  - apply in_seq. pose proof (ravel_lt _ _ H). lia.
  - rewrite unravel_ravel; auto.
Qed.

Local Open Scope R_scope.
Lemma Rsgn_mul_pos a b : 0 < a * b -> 0 < Rsgn a * b.
Proof.
  intros H. unfold Rsgn. destruct (Rltb_spec a 0); [nra|].
  destruct (Rltb_spec 0 a); [nra|]. assert (a = 0) by lra. subst. lra.
Qed.
Lemma Rsgn_mul_nonpos a b : a * b <= 0 -> Rsgn a * b <= 0.
Proof.
  intros H. unfold Rsgn. destruct (Rltb_spec a 0); [nra|].
  destruct (Rltb_spec 0 a); [nra|]. lra.
Qed.
Lemma spanl_err start stop num axis S0 idx :
  bshape (shp start) (shp stop) = Some S0 -> inb idx S0 -> bget start idx * bget stop idx <= 0 ->
  spanl start stop num axis = Err ValueError.
Proof.
  intros HS Hi Hn. unfold spanl. unfold nd_map2 at 1. cbn [nd_map shp]. rewrite HS. cbn [bind].
  rewrite (nd_any_true _ _ idx); auto. cbn [get].
  destruct (Rleb_spec (bget (nd_map Rsgn start) idx * bget stop idx) 0) as [|H]; auto.
  exfalso. apply H. apply Rsgn_mul_nonpos. exact Hn.
Qed.
Definition spanl_log (a b : R) (m i : nat) : R :=
  ln (Rabs a) + INR i * ((ln (Rsgn a * b) - ln (Rabs a)) / INR m).
Lemma cums_const (c : R) j : cums (fun _ => c) j = INR (S j) * c.
Proof. induction j; cbn [cums]; [cbn; numR; lra|]. rewrite IHj, (S_INR (S j)). numR. lra. Qed.
Lemma spanl_ok start stop m axis k S0 :
  bshape (shp start) (shp stop) = Some S0 ->
  py_index (S (length S0)) axis = Some k ->
  (axis = 0%Z \/ length (shp start) = length S0) ->
  (forall idx, inb idx S0 -> 0 < bget start idx * bget stop idx) ->
  (1 <= m)%nat ->
  exists r, spanl start stop (S m) axis = Ok r /\ shp r = insert_at k (S m) S0 /\
    forall idx i, inb idx S0 -> (i < S m)%nat ->
      get r (insert_at k i idx) = Rsgn (bget start idx) * exp (spanl_log (bget start idx) (bget stop idx) m i).
Proof.
  intros HS Hk Hax Hpos Hm.
  destruct (bshape_bto _ _ _ HS) as [B1 B2].
  unfold spanl. unfold nd_map2 at 1. cbn [nd_map shp]. rewrite HS. cbn [bind].
  set (stop' := Nd S0 _).
  rewrite (nd_any_false _ stop').
  2:{ intros idx Hi. cbn [stop' get]. apply Hpos in Hi as Hp. apply Rsgn_mul_pos in Hp.
      destruct (Rleb_spec (bget (nd_map Rsgn start) idx * bget stop idx) 0) as [H|]; auto.
      exfalso. change (bget (nd_map Rsgn start) idx) with (Rsgn (bget start idx)) in H. lra. }
  assert (Hk' := py_index_lt _ _ _ Hk).
  assert (exists s' ax', 
    (if (axis =? 0)%Z then Ok (nd_map Rsgn start, axis)
     else let! s := reshape
              (py_take (if (axis <? 0)%Z then (axis + Z.of_nat (length (shp start)) + 1)%Z else axis) (shp start) ++
               [1%nat] ++
               py_drop (if (axis <? 0)%Z then (axis + Z.of_nat (length (shp start)) + 1)%Z else axis) (shp start))
              (nd_map Rsgn start)
          in Ok (s, if (axis <? 0)%Z then (axis + Z.of_nat (length (shp start)) + 1)%Z else axis)) = Ok (s', ax') /\
    py_index (S (length S0)) ax' = Some k /\
    bto (shp s') (insert_at k (S m) S0) = true /\
    forall idx i, inb idx S0 -> (i < S m)%nat -> bget s' (insert_at k i idx) = Rsgn (bget start idx)) as
    (s' & ax' & E & Hk2 & Hb & Hg).
  { destruct (Z.eqb_spec axis 0) as [->|Hne].
    - assert (k = 0%nat) by (cbv in Hk; congruence). subst k.
      exists (nd_map Rsgn start), 0%Z. split; [reflexivity|]. split; [exact Hk|].
      cbn [nd_map shp]. replace (insert_at 0 (S m) S0) with (S m :: S0) by (destruct S0; reflexivity).
      split; [apply bto_cons; auto|]. intros idx i Hi _.
      replace (insert_at 0 i idx) with (i :: idx) by (destruct idx; reflexivity).
      unfold bget. cbn [shp nd_map get]. rewrite bidx_cons; [reflexivity|].
      rewrite (inb_length _ _ Hi). apply bto_length; auto.
    - destruct Hax as [|Hr]; [contradiction|].
      assert (Eax : (if (axis <? 0)%Z then (axis + Z.of_nat (length (shp start)) + 1)%Z else axis) = Z.of_nat k).
      { unfold py_index in Hk. rewrite Hr. destruct (Z.ltb_spec axis 0).
        - destruct (Z.ltb_spec (Z.of_nat (S (length S0)) + axis) 0); [discriminate|].
          assert (Ek : k = Z.to_nat (Z.of_nat (S (length S0)) + axis)) by congruence. lia.
        - destruct (Z.ltb_spec axis (Z.of_nat (S (length S0)))); [|discriminate]. assert (Ek : k = Z.to_nat axis) by congruence. lia. }
      rewrite Eax. unfold py_take, py_drop, zclip.
      replace (Z.of_nat k <? 0)%Z with false by (symmetry; apply Z.ltb_ge; lia). rewrite Nat2Z.id.
      destruct (reshape_insert k (nd_map Rsgn start)) as (s' & Es & Ss & Gs); [cbn [nd_map shp]; lia|].
      cbn [nd_map shp] in Es, Ss, Gs. rewrite Es. cbn [bind].
      exists s', (Z.of_nat k). split; [reflexivity|]. split; [|split].
      + unfold py_index. replace (Z.of_nat k <? 0)%Z with false by (symmetry; apply Z.ltb_ge; lia).
        replace (Z.of_nat k <? Z.of_nat (S (length S0)))%Z with true by (symmetry; apply Z.ltb_lt; lia).
        rewrite Nat2Z.id. reflexivity.
      + rewrite Ss. apply bto_insert; auto; lia.
      + intros idx i Hi _. assert (Hl := inb_length _ _ Hi). unfold bget at 1.
        rewrite Ss, bidx_insert by lia. rewrite Gs; [reflexivity|].
        eapply inb_bidx; eauto. }
  assert (HS' : bshape (shp (nd_map ln (nd_map Rabs start))) (shp (nd_map ln stop')) = Some S0).
  { cbn [nd_map shp stop']. rewrite bshape_comm. apply bshape_of_bto; auto. }
  destruct (span_ok (nd_map ln (nd_map Rabs start)) (nd_map ln stop') m ax' k S0 HS' Hk2) as (e & Ee & Se & Ge).
  match type of E with ?L = _ => match goal with |- context [bind ?M _] =>
    replace M with (@Ok (nd R * Z) (s', ax')) by (rewrite <- E; reflexivity) end end.
  cbn [bind]. match goal with |- context [bind ?M _] => replace M with (Ok e) by (rewrite <- Ee; reflexivity) end. cbn [bind].
  unfold nd_map2. cbn [nd_map shp]. rewrite Se, bshape_comm, (bshape_of_bto _ _ Hb).
  eexists. split; [reflexivity|]. split; [reflexivity|].
  intros idx i Hi Him. cbn [get]. rewrite Hg by auto. f_equal.
  rewrite bget_self by (cbn [nd_map shp]; rewrite Se; apply inb_insert; auto; lia).
  cbn [nd_map get]. f_equal. rewrite Ge by auto. unfold bz. numR. rewrite ?Rplus_0_r.
  assert (Ea : bget (nd_map ln (nd_map Rabs start)) idx = ln (Rabs (bget start idx))) by reflexivity.
  assert (Eb : bget (nd_map ln stop') idx = ln (Rsgn (bget start idx) * bget stop idx)).
  { rewrite bget_self by auto. reflexivity. }
  rewrite Ea, Eb. unfold spanl_log.
  assert (INR m <> 0) by (apply not_0_INR; lia).
  destruct (Nat.eqb_spec i m) as [->|Hne]; [field; auto|].
  destruct i as [|j]; [cbn [INR]; lra|].
  rewrite cums_const, nofnat_R. reflexivity.
Qed.
