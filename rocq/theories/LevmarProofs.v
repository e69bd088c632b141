(* Lemmas about the levmar model: a small Hoare logic for the call-recording state,
   masks, and the loops. *)
From Coq Require Import List Arith ZArith Bool Lia.
From Verif Require Import Num PyBase NdArray NdLemmas PwPoly SolvePer LsqModel Levmar.
Import ListNotations.

Section Hoare.
  Context {K : Type}.
  Definition hoare {A} (I : trace K -> Prop) (m : St K A) (Q : A -> trace K -> Prop) (E : exn -> trace K -> Prop) : Prop :=
    forall tr, I tr -> match m tr with (Ok a, tr') => Q a tr' | (Err e, tr') => E e tr' end.
  Lemma h_ret {A} (I : trace K -> Prop) (a : A) (Q : A -> trace K -> Prop) (E : exn -> trace K -> Prop) : (forall tr, I tr -> Q a tr) -> hoare I (sret a) Q E.
  Proof. intros H tr Ht. cbn. auto. Qed.
  Lemma h_lift {A} (I : trace K -> Prop) (r : res A) (Q : A -> trace K -> Prop) (E : exn -> trace K -> Prop) :
    (forall a tr, r = Ok a -> I tr -> Q a tr) -> (forall e tr, r = Err e -> I tr -> E e tr) -> hoare I (slift r) Q E.
  Proof. intros H1 H2 tr Ht. unfold slift. destruct r; auto. Qed.
  Lemma h_bind {A B} (I : trace K -> Prop) (m : St K A) (k : A -> St K B) (R : A -> trace K -> Prop) (Q : B -> trace K -> Prop) (E : exn -> trace K -> Prop) :
    hoare I m R E -> (forall a, hoare (R a) (k a) Q E) -> hoare I (sbind m k) Q E.
  Proof.
    intros Hm Hk tr Ht. unfold sbind. specialize (Hm tr Ht). destruct (m tr) as [[a|e] tr']; auto. apply Hk, Hm.
  Qed.
  Lemma h_conseq {A} (I I' : trace K -> Prop) (m : St K A) (Q Q' : A -> trace K -> Prop) (E E' : exn -> trace K -> Prop) :
    (forall tr, I tr -> I' tr) -> (forall a tr, Q' a tr -> Q a tr) -> (forall e tr, E' e tr -> E e tr) ->
    hoare I' m Q' E' -> hoare I m Q E.
  Proof. intros HI HQ HE H tr Ht. specialize (H tr (HI tr Ht)). destruct (m tr) as [[a|e] tr']; auto. Qed.
  (* lifted computations keep the trace *)
  Lemma h_lift_pure {A} (I : trace K -> Prop) (r : res A) (E : exn -> trace K -> Prop) :
    (forall e tr, I tr -> E e tr) -> hoare I (slift r) (fun a tr => I tr /\ r = Ok a) E.
  Proof. intros H. apply h_lift; auto. Qed.
  Lemma h_pre {A} (I : trace K -> Prop) (P : Prop) (m : St K A) (Q : A -> trace K -> Prop) (E : exn -> trace K -> Prop) : (P -> hoare I m Q E) -> hoare (fun tr => I tr /\ P) m Q E.
  Proof. intros H tr [Ht HP]. apply H; auto. Qed.
  Lemma h_self {A} (I : trace K -> Prop) (m : St K A) (Q : A -> trace K -> Prop) (E : exn -> trace K -> Prop) :
    hoare I m Q E -> hoare I m (fun a tr' => Q a tr' /\ exists tr tr1, m tr = (Ok a, tr1)) E.
  Proof. intros H tr Ht. specialize (H tr Ht). destruct (m tr) as [[a|e] tr'] eqn:Em; auto. split; eauto. Qed.
End Hoare.

Section Masks.
  Context {K : Type} {NK : Num K}.
  Lemma put_length mask (full p : list K) : length (put mask full p) = length full.
  Proof.
    revert full p; induction mask as [|[|] mask IH]; intros [|y full] p; cbn; auto.
    destruct p; cbn; auto.
  Qed.
  Lemma put_fixed mask (full p : list K) i d : nth i mask true = false -> nth i (put mask full p) d = nth i full d.
  Proof.
    revert full p i; induction mask as [|[|] mask IH]; intros [|y full] p i H; cbn in *; auto; try (destruct i; discriminate).
    - destruct p; [reflexivity|]. destruct i; [discriminate|]. cbn. apply IH, H.
    - destruct i; [reflexivity|]. cbn. apply IH, H.
  Qed.
  Lemma put_put mask (full p q : list K) : length q = length p -> put mask (put mask full p) q = put mask full q.
  Proof.
    revert full p q; induction mask as [|[|] mask IH]; intros [|y full] p q H; cbn; auto.
    - destruct p as [|x p], q as [|z q]; cbn in *; try lia; auto. f_equal. apply IH. lia.
    - f_equal. apply IH. exact H.
  Qed.
  Definition nfree (mask : list bool) : nat := length (filter (fun b => b) mask).
  Lemma sel_length {A} mask (l : list A) : length mask = length l -> length (sel mask l) = nfree mask.
  Proof.
    unfold nfree. revert l; induction mask as [|[|] mask IH]; intros [|x l] H; cbn in *; try lia; auto.
  Qed.
  Lemma sel_put mask (full p : list K) : length mask = length full -> length p = nfree mask -> sel mask (put mask full p) = p.
  Proof.
    unfold nfree. revert full p; induction mask as [|[|] mask IH]; intros [|y full] p H Hp; cbn in *; try lia.
    - destruct p; [reflexivity|discriminate].
    - destruct p as [|x p]; [discriminate|]. cbn in *. f_equal. apply IH; lia.
    - apply IH; lia.
  Qed.
  Lemma put_sel mask (full : list K) : length mask = length full -> put mask full (sel mask full) = full.
  Proof.
    revert full; induction mask as [|[|] mask IH]; intros [|y full] H; cbn in *; try lia; auto; f_equal; apply IH; lia.
  Qed.
  (* the i-th entry, when free, is entry number rank_of of the selection *)
  Lemma sel_nth {A} mask (l : list A) i d : nth i mask false = true -> nth (rank_of mask i) (sel mask l) d = nth i l d.
  Proof.
    unfold rank_of. revert l i; induction mask as [|b mask IH]; intros [|x l] i H; cbn in *.
    - destruct i; discriminate.
    - destruct i; discriminate.
    - destruct b; destruct (length _); cbn; destruct i; reflexivity.
    - destruct i; cbn in *.
      + subst b. reflexivity.
      + destruct b; cbn; apply IH, H.
  Qed.
  Lemma rank_lt mask i : nth i mask false = true -> rank_of mask i < nfree mask.
  Proof.
    unfold rank_of, nfree. revert i; induction mask as [|b mask IH]; intros i H; cbn in *.
    - destruct i; discriminate.
    - destruct i; cbn in *; [subst b; cbn; lia|]. specialize (IH i H). destruct b; cbn; lia.
  Qed.
  Lemma rank_onto mask j : j < nfree mask -> exists i, nth i mask false = true /\ rank_of mask i = j.
  Proof.
    unfold rank_of, nfree. revert j; induction mask as [|[|] mask IH]; intros j H; cbn in *; [lia| |].
    - destruct j; [exists 0; auto|]. destruct (IH j) as (i & Hi & E); [lia|]. exists (S i). cbn. rewrite E. auto.
    - destruct (IH j H) as (i & Hi & E). exists (S i). cbn. auto.
  Qed.
  Lemma nth_mask_indep (mask : list bool) i a b : i < length mask -> nth i mask a = nth i mask b.
  Proof. apply nth_indep. Qed.
  Lemma rank_inj mask i i' : nth i mask false = true -> nth i' mask false = true -> rank_of mask i = rank_of mask i' -> i = i'.
  Proof.
    unfold rank_of. revert i i'; induction mask as [|b mask IH]; intros i i' H H' E; [destruct i; discriminate|].
    destruct i, i'; cbn in *; auto.
    - subst b. cbn in E. discriminate.
    - subst b. cbn in E. discriminate.
    - f_equal. apply IH; auto. destruct b; cbn in E; lia.
  Qed.

  (* pfix *)
  Lemma py_index_spec n z k : py_index n z = Some k ->
    k < n /\ (z = Z.of_nat k \/ z = (Z.of_nat k - Z.of_nat n)%Z).
  Proof.
    unfold py_index. intros H.
    destruct (z <? 0)%Z eqn:E1.
    - destruct (Z.of_nat n + z <? 0)%Z eqn:E2; [discriminate|]. injection H as <-.
      apply Z.ltb_lt in E1. apply Z.ltb_ge in E2. split; [lia|]. right. lia.
    - destruct (z <? Z.of_nat n)%Z eqn:E2; [|discriminate]. injection H as <-.
      apply Z.ltb_ge in E1. apply Z.ltb_lt in E2. split; [lia|]. left. lia.
  Qed.
  Lemma nth_upd_b i k (v d : bool) l : nth i (upd k v l) d = if (i =? k) && (k <? length l) then v else nth i l d.
  Proof.
    revert i k; induction l as [|x l IH]; intros i k; cbn.
    - destruct k; cbn; rewrite ?andb_false_r; reflexivity.
    - destruct k, i; cbn; auto. rewrite IH. reflexivity.
  Qed.
  Lemma upd_length_b {A} k (v : A) l : length (upd k v l) = length l.
  Proof. revert k; induction l as [|x l IH]; intros [|k]; cbn; auto. Qed.
  Lemma clear_idx_spec n idx mask m : clear_idx n idx mask = Ok m -> length mask = n ->
    length m = n /\
    forall i, i < n -> (nth i m true = false <-> nth i mask true = false \/ exists z, In z idx /\ py_index n z = Some i).
  Proof.
    revert mask; induction idx as [|z idx IH]; cbn; intros mask H L.
    - injection H as <-. split; auto. intros i Hi. split; auto. intros [X|(z & [] & _)]. exact X.
    - destruct (py_index n z) as [k|] eqn:E; [|discriminate].
      pose proof (py_index_spec _ _ _ E) as [Hk _].
      destruct (IH _ H) as [L' S]; [rewrite upd_length_b; auto|]. split; auto. intros i Hi. rewrite S by auto.
      rewrite nth_upd_b, L.
      destruct (Nat.eqb_spec i k) as [->|Hne]; cbn [andb].
      + destruct (Nat.ltb_spec k n); [|lia]. split; auto. intros _. right. exists z. auto.
      + split; intros [X|(z' & Hz & X)].
        * auto.
        * right. exists z'. auto.
        * auto.
        * destruct Hz as [->|Hz]; [congruence|]. right. exists z'. auto.
  Qed.
  (* the fixed parameters are the ones pfix names, counting from the end when negative *)
  Lemma mask_of_spec n pfix m : mask_of n pfix = Ok m ->
    length m = n /\
    forall i, i < n -> (nth i m true = false <-> exists l z, pfix = Some l /\ In z l /\ py_index n z = Some i).
  Proof.
    unfold mask_of. destruct pfix as [[|z l]|].
    - discriminate.
    - intros H. apply clear_idx_spec in H; [|apply repeat_length]. destruct H as [L S]. split; auto.
      intros i Hi. rewrite S by auto.
      rewrite nth_repeat. split.
      + intros [X|(z' & Hz & X)]; [discriminate|]. eauto.
      + intros (l' & z' & X & Hz & Y). injection X as <-. right. eauto.
    - intros H. injection H as <-. split; [apply repeat_length|]. intros i Hi. rewrite nth_repeat.
      split; [discriminate|]. intros (l & z & X & _). discriminate.
  Qed.
End Masks.

(* shapes that survive the algebra of one iteration: the gradient and the matrix have
   one entry per free parameter *)
Section Shapes.
  Context {K : Type} {NK : Num K}.
  Lemma brev_head (s t u : list nat) : brev s t = Some u -> length u = Nat.max (length s) (length t).
  Proof.
    revert t u; induction s as [|a s IH]; intros [|b t] u H; cbn in *; try (injection H as <-; reflexivity).
    destruct (bdim a b); [|discriminate]. destruct (brev s t) eqn:E; [|discriminate]. injection H as <-.
    cbn. rewrite (IH _ _ E). reflexivity.
  Qed.
  Lemma bshape_len s t u : bshape s t = Some u -> length u = Nat.max (length s) (length t).
  Proof.
    unfold bshape. destruct (brev (rev s) (rev t)) eqn:E; cbn; [|discriminate]. intros H. injection H as <-.
    apply brev_head in E. rewrite !rev_length in *. exact E.
  Qed.
  (* wgt of one axis against a of first axis n and at least one more *)
  Lemma bshape_first w n r u : bshape [w] (n :: r) = Some u -> r <> [] -> exists r', u = n :: r' /\ length r' = length r.
  Proof.
    unfold bshape. cbn [rev app].
    intros H Hr. destruct (exists_last Hr) as (r0 & x & ->). clear Hr.
    rewrite rev_app_distr in H. cbn [rev app brev] in H. destruct (bdim w x) as [d|]; [|discriminate]. cbn in H.
    injection H as <-. rewrite rev_app_distr, rev_involutive. cbn. exists (r0 ++ [d]). rewrite !app_length. auto.
  Qed.
  Lemma alpha_shape (wgt dm : nd K) a al n r E : shp wgt = [E] -> shp dm = n :: r -> nd_map2 nmul wgt dm = Ok a ->
    forall x, inner_nn a dm = Ok x -> to_arr2 x = Ok al -> nr al = n /\ SolvePer.nc al = n /\ exists m, r = [m].
  Proof.
    intros Hw Hd Ha x Hx Hal. unfold nd_map2 in Ha. rewrite Hw, Hd in Ha.
    destruct (bshape [E] (n :: r)) as [u|] eqn:B; [|discriminate]. injection Ha as <-.
    unfold inner_nn in Hx. cbn [shp] in Hx. rewrite Hd in Hx.
    match type of Hx with (if ?c then _ else _) = _ => destruct c; [|discriminate] end. injection Hx as <-.
    unfold to_arr2 in Hal. cbn [shp] in Hal.
    pose proof (bshape_len _ _ _ B) as L. cbn [length] in L.
    destruct r as [|m r].
    - (* rank 1 *)
      destruct u as [|u0 [|]]; cbn in L; try lia. cbn in Hal. discriminate.
    - destruct (bshape_first _ _ _ _ B) as (r' & -> & Lr); [discriminate|].
      destruct r' as [|m' r']; [cbn in Lr; discriminate|].
      destruct r as [|m2 r].
      + destruct r' as [|]; [|cbn in Lr; lia]. cbn in Hal. injection Hal as <-. cbn. eauto.
      + destruct r' as [|m2' r']; [cbn in Lr; lia|].
        change (removelast (n :: m' :: m2' :: r')) with (n :: m' :: removelast (m2' :: r')) in Hal.
        change (removelast (n :: m :: m2 :: r)) with (n :: m :: removelast (m2 :: r)) in Hal.
        cbn [app] in Hal. destruct (removelast (m2' :: r')); cbn in Hal; discriminate.
  Qed.
  Lemma beta_shape (dm wd : nd K) n m b l : shp dm = [n; m] -> dot_nn dm wd = Ok b -> to_list1 b = Ok l -> length l = n.
  Proof.
    intros Hd Hb Hl. unfold dot_nn in Hb. rewrite Hd in Hb.
    match type of Hb with (if ?c then _ else _) = _ => destruct c; [|discriminate] end. injection Hb as <-.
    unfold to_list1 in Hl. cbn [shp removelast app] in Hl.
    destruct (remove_at _ (shp wd)); [|discriminate]. injection Hl as <-. rewrite map_length, seq_length. reflexivity.
  Qed.
End Shapes.

Section Run.
  Context {K : Type} {NK : Num K}.
  Variable f : @lfun K.
  Variable solve : arr2 K -> list K -> res (list K).
  Variables (data wgt : nd K) (p0 : list K) (pmask : list bool)
            (pmin pmax : option (list K)) (prel pabs : list K) (cfg : @lmcfg K).
  Let nf := nfree pmask.
  Hypothesis Hmask : length pmask = length p0.
  Hypothesis Hmin : forall l, pmin = Some l -> length l = nf.
  Hypothesis Hmax : forall l, pmax = Some l -> length l = nf.
  Hypothesis Hrel : length prel = length p0.
  Hypothesis Habs : length pabs = length p0.
  Hypothesis Hwgt : exists E, shp wgt = [E].
  Hypothesis Hsolve : forall a b x, solve a b = Ok x -> length x = length b.
  (* a property of the free parameters kept by the steps of the algorithm *)
  Variable G : list K -> Prop.
  Let good (fp : list K) : Prop := length fp = nf /\ G fp.
  Let Inv (tr : trace K) : Prop := Forall (fun q => exists fp, q = put pmask p0 fp /\ good fp) tr.
  Hypothesis Hstep : forall fp dps, good fp -> np_flip pmin pmax fp (np_steps prel pabs pmask (put pmask p0 fp)) = Ok dps ->
    forall i, i < nf -> G (upd i (nadd (nth i fp n0) (nth i dps n0)) fp).
  Hypothesis Hclip : forall fp step, good fp -> length step = nf -> G (clip pmin pmax (zipw nadd fp step)).

  Lemma np_steps_len fp : length (np_steps prel pabs pmask (put pmask p0 fp)) = nf.
  Proof.
    unfold np_steps. apply sel_length. rewrite zipw_length, combine_length, put_length. lia.
  Qed.
  Lemma np_flip_len fp dp dps : length fp = nf -> length dp = nf -> np_flip pmin pmax fp dp = Ok dps -> length dps = nf.
  Proof.
    intros L1 L2 H. unfold np_flip in H. destruct pmax as [hi|]; [|injection H as <-; exact L2].
    specialize (Hmax hi eq_refl).
    assert (L : length (zipw (fun (m : bool) d => if m then nmul d (nopp n1) else d)
       (zipw (fun xd h => nltb h (nadd (fst xd) (snd xd))) (combine fp dp) hi) dp) = nf).
    { rewrite !zipw_length, combine_length. lia. }
    destruct (existsb _ _).
    - destruct pmin as [lo|]; [destruct (existsb _ _); [discriminate|]|]; injection H as <-; exact L.
    - injection H as <-. exact L.
  Qed.
  Lemma clip_len fp step : length fp = nf -> length step = nf -> length (clip pmin pmax (zipw nadd fp step)) = nf.
  Proof.
    intros L1 L2. unfold clip. destruct pmin as [lo|], pmax as [hi|]; rewrite ?zipw_length, ?(Hmin _ eq_refl), ?(Hmax _ eq_refl); lia.
  Qed.
  Lemma call_inv h fp (v : nd K) : good fp -> hoare Inv (call_plain h (put pmask p0 fp)) (fun _ tr => Inv tr) (fun _ tr => Inv tr).
  Proof.
    intros Hg tr Ht. unfold call_plain.
    assert (Inv (tr ++ [put pmask p0 fp])) by (apply Forall_app; split; [exact Ht|constructor; [eauto|constructor]]).
    destruct (h (length tr) (put pmask p0 fp)); assumption.
  Qed.
  Lemma np_loop_inv h fp f0 : good fp -> forall dps i,
    (forall j, j < length dps -> G (upd (i + j) (nadd (nth (i + j) fp n0) (nth j dps n0)) fp)) ->
    hoare Inv (np_loop h pmask (put pmask p0 fp) fp f0 i dps) (fun rows tr => Inv tr /\ length rows = length dps) (fun _ tr => Inv tr).
  Proof.
    intros Hg dps. induction dps as [|d dps IH]; intros i Hd; cbn [np_loop].
    - apply h_ret. auto.
    - destruct (neqb d n0); [apply h_lift; auto; discriminate|].
      assert (Hg' : good (upd i (nadd (nth i fp n0) d) fp)).
      { split; [rewrite upd_length; apply Hg|]. specialize (Hd 0). rewrite Nat.add_0_r in Hd. apply Hd. cbn; lia. }
      rewrite put_put by (rewrite upd_length; reflexivity).
      eapply h_bind; [apply (call_inv h _ f0 Hg')|]. intros v.
      eapply h_bind; [apply h_lift_pure; auto|]. intros df. cbn beta. apply h_pre. intros _.
      eapply h_bind; [apply (IH (S i))|].
      + intros j Hj. specialize (Hd (S j)). cbn [nth length] in Hd. replace (S i + j) with (i + S j) by lia. apply Hd. lia.
      + intros rows. cbn beta. apply h_ret. intros tr [H1 H2]. split; auto. cbn. lia.
  Qed.
  Lemma np_stack_shape (rows : list (nd K)) d : np_stack rows = Ok d -> exists r, shp d = length rows :: r.
  Proof.
    unfold np_stack. destruct rows as [|r rows]; [intros H; injection H as <-; exists []; reflexivity|].
    destruct (forallb _ _); [|discriminate]. intros H. injection H as <-. eexists. reflexivity.
  Qed.
  Lemma g_both_inv fp : good fp ->
    hoare Inv (g_both f p0 pmask pmin pmax prel pabs fp)
      (fun r tr => Inv tr /\ exists s, shp (snd r) = nf :: s) (fun _ tr => Inv tr).
  Proof.
    intros Hg. unfold g_both. destruct f as [h|h].
    - eapply h_bind; [apply (call_inv h fp wgt Hg)|]. intros f0. cbn beta.
      eapply h_bind with (R := fun d tr => Inv tr /\ exists s, shp d = nf :: s).
      + unfold numerical_partials. rewrite sel_put by (auto; apply Hg).
        eapply h_bind; [apply h_lift_pure; auto|]. intros dps. cbn beta. apply h_pre. intros Hf.
        assert (Ld : length dps = nf) by (eapply np_flip_len; [apply Hg|apply np_steps_len|exact Hf]).
        eapply h_bind; [apply (np_loop_inv h fp f0 Hg dps 0)|].
        * intros j Hj. cbn [plus]. apply (Hstep fp dps Hg Hf). lia.
        * intros rows. cbn beta. apply h_pre. intros Lr. apply h_lift; auto.
          intros a tr Ha Ht. split; auto. apply np_stack_shape in Ha. rewrite Lr, Ld in Ha. exact Ha.
      + intros d. cbn beta. apply h_ret. auto.
    - unfold call_gen.
      eapply h_bind with (R := fun _ tr => Inv tr).
      { intros tr Ht. apply Forall_app. split; [exact Ht|constructor; [eauto|constructor]]. }
      intros y. cbn beta. eapply h_bind; [apply h_lift_pure; auto|]. intros f0. cbn beta. apply h_pre. intros _.
      eapply h_bind; [apply h_lift_pure; auto|]. intros d. cbn beta. apply h_pre. intros _.
      eapply h_bind; [apply h_lift_pure; auto|]. intros d'. cbn beta. apply h_pre. intros Hd.
      apply h_ret. intros tr Ht. split; auto. unfold sel_rows in Hd.
      destruct (shp d) as [|n r]; [discriminate|]. destruct (Nat.eqb_spec n (length pmask)); [|discriminate].
      injection Hd as <-. cbn [snd shp]. exists r. f_equal. apply sel_length. rewrite seq_length. auto.
  Qed.
  Lemma g_next_inv fp : good fp -> hoare Inv (g_next f p0 pmask fp) (fun _ tr => Inv tr) (fun _ tr => Inv tr).
  Proof.
    intros Hg. unfold g_next. destruct f as [h|h]; [apply (call_inv h fp wgt Hg)|].
    eapply h_bind with (R := fun _ tr => Inv tr).
    { intros tr Ht. apply Forall_app. split; [exact Ht|constructor; [eauto|constructor]]. }
    intros y. apply h_lift; auto.
  Qed.
  Lemma lm_inner_inv fuel : forall fp chi2p al be lam neval, good fp -> length be = nf ->
    hoare Inv (lm_inner f solve data wgt p0 pmask pmin pmax cfg fuel fp chi2p al be lam neval)
      (fun r tr => Inv tr /\ forall p c l n, r = Some (p, c, l, n) -> good p) (fun _ tr => Inv tr).
  Proof.
    induction fuel as [|fuel IH]; intros fp chi2p al be lam neval Hg Hb; cbn [lm_inner].
    - apply h_ret. intros tr Ht. split; auto. discriminate.
    - eapply h_bind; [apply h_lift_pure; auto|]. intros step. cbn beta. apply h_pre. intros Hs.
      apply Hsolve in Hs. rewrite Hb in Hs.
      assert (Hg' : good (clip pmin pmax (zipw nadd fp step))).
      { split; [apply clip_len; auto; apply Hg|apply Hclip; auto]. }
      eapply h_bind; [apply (g_next_inv _ Hg')|]. intros v. cbn beta.
      eapply h_bind; [apply h_lift_pure; auto|]. intros chi2. cbn beta. apply h_pre. intros _.
      destruct (nltb chi2 _ || _).
      + apply h_ret. intros tr Ht. split; auto. intros p c l n H. injection H as <- _ _ _. exact Hg'.
      + destruct (nltb (c_lambdax cfg) _); [apply h_lift; auto; discriminate|]. apply IH; auto.
  Qed.
  Lemma lm_outer_inv fuel fi : forall fp chi lam niter neval, good fp ->
    hoare Inv (lm_outer f solve data wgt p0 pmask pmin pmax prel pabs cfg fuel fi fp chi lam niter neval)
      (fun r tr => Inv tr /\ forall o, r = Some o -> good (o_p o) /\ nr (o_alpha o) = nf /\ SolvePer.nc (o_alpha o) = nf)
      (fun _ tr => Inv tr).
  Proof.
    induction fuel as [|fuel IH]; intros fp chi lam niter neval Hg; cbn [lm_outer].
    - apply h_ret. intros tr Ht. split; auto. discriminate.
    - eapply h_bind; [apply (g_both_inv fp Hg)|]. intros [f0 d]. cbn [fst snd]. apply h_pre. intros [s Hs].
      eapply h_bind; [apply h_lift_pure; auto|]. intros dm. cbn beta. apply h_pre. intros _.
      eapply h_bind; [apply h_lift_pure; auto|]. intros wd. cbn beta. apply h_pre. intros _.
      eapply h_bind with (R := fun _ tr => Inv tr).
      { destruct chi; [apply h_ret; auto|].
        eapply h_bind; [apply h_lift_pure; auto|]. intros c. cbn beta. apply h_pre. intros _. apply h_ret. auto. }
      intros [chi2 chi20]. cbn [fst snd].
      eapply h_bind; [apply h_lift_pure; auto|]. intros beta. cbn beta. apply h_pre. intros Hbeta.
      eapply h_bind; [apply h_lift_pure; auto|]. intros wdd. cbn beta. apply h_pre. intros Hwdd.
      eapply h_bind; [apply h_lift_pure; auto|]. intros alpha. cbn beta. apply h_pre. intros Halpha.
      eapply h_bind; [apply h_lift_pure; auto|]. intros al. cbn beta. apply h_pre. intros Hal.
      destruct Hwgt as [E HE].
      destruct (alpha_shape wgt d wdd al nf s E HE Hs Hwdd alpha Halpha Hal) as (A1 & A2 & m & ->).
      destruct (neqb chi2 n0).
      { apply h_ret. intros tr Ht. split; auto. intros o Ho. injection Ho as <-. cbn. auto. }
      eapply h_bind; [apply h_lift_pure; auto|]. intros be. cbn beta. apply h_pre. intros Hbe.
      pose proof (beta_shape _ _ _ _ _ _ Hs Hbeta Hbe) as Lb.
      eapply h_bind; [apply (lm_inner_inv fi fp chi2 al be lam (S neval) Hg Lb)|].
      intros r. cbn beta. destruct r as [[[[p' chi2'] lam'] neval']|].
      + apply h_pre. intros Hg'. specialize (Hg' _ _ _ _ eq_refl).
        destruct (nleb _ _); [|destruct (Z.leb _ _)].
        * apply h_ret. intros tr Ht. split; auto. intros o Ho. injection Ho as <-. cbn. auto.
        * apply h_ret. intros tr Ht. split; auto. intros o Ho. injection Ho as <-. cbn. auto.
        * apply IH. exact Hg'.
      + apply h_ret. intros tr [Ht _]. split; auto. discriminate.
  Qed.
End Run.

Section Whole.
  Context {K : Type} {NK : Num K}.
  Variable f : @lfun K.
  Variable solve : arr2 K -> list K -> res (list K).
  Variable inv : arr2 K -> res (arr2 K).
  Hypothesis Hsolve : forall a b x, solve a b = Ok x -> length x = length b.
  Lemma bc_list_len n (l l' : list K) : bc_list n l = Ok l' -> length l' = n.
  Proof.
    unfold bc_list. destruct (Nat.eqb_spec (length l) n); [intros H; injection H as <-; auto|].
    destruct l as [|x [|y l]]; try discriminate. intros H. injection H as <-. apply repeat_length.
  Qed.
  Lemma bc_list_nth n (l l' : list K) i d : bc_list n l = Ok l' -> i < n ->
    nth i l' d = match l with [x] => x | _ => nth i l d end.
  Proof.
    unfold bc_list. destruct (Nat.eqb_spec (length l) n).
    - intros H Hi. injection H as <-. destruct l as [|x [|y l]]; auto. cbn in e. destruct i; [reflexivity|lia].
    - destruct l as [|x [|y l]]; try discriminate. intros H Hi. injection H as <-.
      rewrite (nth_indep _ d x) by (rewrite repeat_length; auto). apply nth_repeat.
  Qed.
  Lemma bc_opt_len n (o : option (list K)) l : bc_opt n o = Ok (Some l) -> length l = n.
  Proof.
    unfold bc_opt. destruct o as [l0|]; [|discriminate]. destruct (bc_list n l0) eqn:E; cbn; [|discriminate].
    intros H. injection H as <-. eapply bc_list_len; eauto.
  Qed.
  (* an invariant of the free parameters holds at every call of f and for the result *)
  Lemma levmar_inv fo fi cfg data (p0 : list K) kw (G : list bool -> option (list K) -> option (list K) -> list K -> Prop) :
    let n := length p0 in
    (forall mask pmin pmax prel pabs, mask_of n (k_pfix kw) = Ok mask ->
       bc_opt n (k_pmin kw) = Ok pmin -> bc_opt n (k_pmax kw) = Ok pmax ->
       bc_list n (match k_prel kw with Some l => l | None => [c_prel cfg] end) = Ok prel ->
       bc_list n (match k_pabs kw with Some l => l | None => [c_pabs cfg] end) = Ok pabs ->
       let lo := option_map (sel mask) pmin in let hi := option_map (sel mask) pmax in
       G mask pmin pmax (sel mask p0) /\
       (forall fp dps, length fp = nfree mask -> G mask pmin pmax fp ->
          np_flip lo hi fp (np_steps prel pabs mask (put mask p0 fp)) = Ok dps ->
          forall i, i < nfree mask -> G mask pmin pmax (upd i (nadd (nth i fp n0) (nth i dps n0)) fp)) /\
       (forall fp step, length fp = nfree mask -> G mask pmin pmax fp -> length step = nfree mask ->
          G mask pmin pmax (clip lo hi (zipw nadd fp step)))) ->
    let out := levmar_run f solve inv fo fi cfg data p0 kw [] in
    let ok q := exists mask pmin pmax fp, mask_of n (k_pfix kw) = Ok mask /\ bc_opt n (k_pmin kw) = Ok pmin /\
                  bc_opt n (k_pmax kw) = Ok pmax /\ length fp = nfree mask /\
                  G mask pmin pmax fp /\ q = put mask p0 fp in
    Forall ok (snd out) /\ forall m, fst out = Ok (Some m) -> ok (l_p m).
  Proof.
    intros n HG out ok. subst out.
    destruct (levmar_run f solve inv fo fi cfg data p0 kw []) as [r tr] eqn:EE. cbn [fst snd].
    unfold levmar_run in EE. fold n in EE.
    unfold sbind at 1 in EE. unfold slift at 1 in EE. destruct (match k_errs kw with Some _ => _ | None => _ end) as [errs|]; [|injection EE as <- <-; split; [constructor|discriminate]].
    unfold sbind at 1 in EE. unfold slift at 1 in EE. destruct (bc_opt n (k_pmin kw)) as [pmin|] eqn:E1; [|injection EE as <- <-; split; [constructor|discriminate]].
    unfold sbind at 1 in EE. unfold slift at 1 in EE. destruct (bc_opt n (k_pmax kw)) as [pmax|] eqn:E2; [|injection EE as <- <-; split; [constructor|discriminate]].
    unfold sbind at 1 in EE. unfold slift at 1 in EE. destruct (bc_list n (match k_prel kw with Some l => l | None => _ end)) as [prel|] eqn:E3; [|injection EE as <- <-; split; [constructor|discriminate]].
    unfold sbind at 1 in EE. unfold slift at 1 in EE. destruct (bc_list n (match k_pabs kw with Some l => l | None => _ end)) as [pabs|] eqn:E4; [|injection EE as <- <-; split; [constructor|discriminate]].
    unfold sbind at 1 in EE. unfold slift at 1 in EE. destruct (mask_of n (k_pfix kw)) as [mask|] eqn:E5; [|injection EE as <- <-; split; [constructor|discriminate]].
    destruct (HG mask pmin pmax prel pabs eq_refl eq_refl eq_refl eq_refl eq_refl) as (G0 & G1 & G2).
    destruct (mask_of_spec _ _ _ E5) as [Lm _].
    assert (Lmin : forall l, option_map (sel mask) pmin = Some l -> length l = nfree mask).
    { intros l Hl. destruct pmin as [l0|]; [|discriminate]. injection Hl as <-. apply sel_length.
      rewrite Lm. symmetry. eapply bc_opt_len; eauto. }
    assert (Lmax : forall l, option_map (sel mask) pmax = Some l -> length l = nfree mask).
    { intros l Hl. destruct pmax as [l0|]; [|discriminate]. injection Hl as <-. apply sel_length.
      rewrite Lm. symmetry. eapply bc_opt_len; eauto. }
    match type of EE with context [nd_map ?h (nravel errs)] => set (wgt := nd_map h (nravel errs)) in * end.
    assert (Hw : exists E, shp wgt = [E]) by (eexists; reflexivity).
    pose proof (lm_outer_inv f solve (nravel data) wgt p0 mask (option_map (sel mask) pmin) (option_map (sel mask) pmax) prel pabs cfg
      Lm Lmin Lmax (bc_list_len _ _ _ E3) (bc_list_len _ _ _ E4) Hw Hsolve (G mask pmin pmax)
      (fun fp dps Hg => G1 fp dps (proj1 Hg) (proj2 Hg)) (fun fp step Hg => G2 fp step (proj1 Hg) (proj2 Hg))
      fo fi (sel mask p0) None (c_lambda0 cfg) 0%Z 0 (conj (sel_length mask p0 Lm) G0) [] (Forall_nil _)) as H.
    unfold sbind at 1 in EE.
    destruct (lm_outer _ _ _ _ _ _ _ _ _ _ _ _ _ _ _ _ _ _ _) as [[[o|]|e] tr'].
    - destruct H as [H1 H2]. destruct (H2 o eq_refl) as ((L & Go) & _).
      assert (F : Forall ok tr').
      { eapply Forall_impl; [|exact H1]. intros q (fp & -> & Lf & Gf). exists mask, pmin, pmax, fp. auto 10. }
      unfold sbind, slift in EE. destruct (inv (o_alpha o)); [|injection EE as <- <-; split; [exact F|discriminate]].
      destruct (spread mask a); [|injection EE as <- <-; split; [exact F|discriminate]].
      unfold sret in EE. injection EE as <- <-.
      split; [exact F|]. intros m Hm. injection Hm as <-. cbn [l_p]. exists mask, pmin, pmax, (o_p o). auto 10.
    - destruct H as [H1 _]. unfold sret in EE. injection EE as <- <-. split; [|discriminate].
      eapply Forall_impl; [|exact H1]. intros q (fp & -> & Lf & Gf). exists mask, pmin, pmax, fp. auto 10.
    - injection EE as <- <-. split; [|discriminate].
      eapply Forall_impl; [|exact H]. intros q (fp & -> & Lf & Gf). exists mask, pmin, pmax, fp. auto 10.
  Qed.
End Whole.

(* levmar as setup, loop and evaluation of the result *)
Section Unfold.
  Context {K : Type} {NK : Num K}.
  Variable f : @lfun K.
  Variable solve : arr2 K -> list K -> res (list K).
  Variable inv : arr2 K -> res (arr2 K).
  Definition errs_of (data : nd K) (kw : @lmkw K) : res (nd K) :=
    match k_errs kw with
    | None => Ok (full (shp data) n1)
    | Some e => nd_map2 (fun a b => nadd a b) e (full (shp data) n0)
    end.
  Definition wgt_of (errs : nd K) : nd K := nd_map (fun e => ndiv n1 (nmul e e)) (nravel errs).
  Definition ndof_of (data : nd K) (mask : list bool) : Z := (Z.of_nat (size (shp data)) - Z.of_nat (nfree mask))%Z.
  Definition lm_finish (data : nd K) (p0 : list K) (mask : list bool) (r : res (option lmout) * trace K) : res (option (@lmfit K)) * trace K :=
    match r with
    | (Err e, tr) => (Err e, tr)
    | (Ok None, tr) => (Ok None, tr)
    | (Ok (Some o), tr) =>
      match inv (o_alpha o) with
      | Err e => (Err e, tr)
      | Ok ai =>
        match spread mask ai with
        | Err e => (Err e, tr)
        | Ok pcov => (Ok (Some (LmFit (put mask p0 (o_p o)) pcov (ndiv (o_chi2 o) (nofZ (ndof_of data mask))) (ndof_of data mask) (lisgenf f)
                        (ndiv (o_chi20 o) (nofZ (ndof_of data mask))) (o_niter o) (o_neval o) (o_lam o) p0)), tr)
        end
      end
    end.
  Lemma levmar_unfold fo fi cfg data (p0 : list K) kw :
    let n := length p0 in
    (exists e, levmar_run f solve inv fo fi cfg data p0 kw [] = (Err e, [])) \/
    (exists errs pmin pmax prel pabs mask,
      errs_of data kw = Ok errs /\ mask_of n (k_pfix kw) = Ok mask /\
      bc_opt n (k_pmin kw) = Ok pmin /\ bc_opt n (k_pmax kw) = Ok pmax /\
      bc_list n (match k_prel kw with Some l => l | None => [c_prel cfg] end) = Ok prel /\
      bc_list n (match k_pabs kw with Some l => l | None => [c_pabs cfg] end) = Ok pabs /\
      levmar_run f solve inv fo fi cfg data p0 kw [] =
      lm_finish data p0 mask
        (lm_outer f solve (nravel data) (wgt_of errs) p0 mask (option_map (sel mask) pmin) (option_map (sel mask) pmax) prel pabs cfg
                  fo fi (sel mask p0) None (c_lambda0 cfg) 0%Z 0 [])).
  Proof.
    intros n.
    destruct (levmar_run f solve inv fo fi cfg data p0 kw []) as [r tr] eqn:EE.
    unfold levmar_run in EE. fold n in EE. fold (errs_of data kw) in EE.
    unfold sbind at 1 in EE. unfold slift at 1 in EE. destruct (errs_of data kw) as [errs|] eqn:E0; [|injection EE as <- <-; left; eauto].
    unfold sbind at 1 in EE. unfold slift at 1 in EE. destruct (bc_opt n (k_pmin kw)) as [pmin|] eqn:E1; [|injection EE as <- <-; left; eauto].
    unfold sbind at 1 in EE. unfold slift at 1 in EE. destruct (bc_opt n (k_pmax kw)) as [pmax|] eqn:E2; [|injection EE as <- <-; left; eauto].
    unfold sbind at 1 in EE. unfold slift at 1 in EE. destruct (bc_list n (match k_prel kw with Some l => l | None => _ end)) as [prel|] eqn:E3; [|injection EE as <- <-; left; eauto].
    unfold sbind at 1 in EE. unfold slift at 1 in EE. destruct (bc_list n (match k_pabs kw with Some l => l | None => _ end)) as [pabs|] eqn:E4; [|injection EE as <- <-; left; eauto].
    unfold sbind at 1 in EE. unfold slift at 1 in EE. destruct (mask_of n (k_pfix kw)) as [mask|] eqn:E5; [|injection EE as <- <-; left; eauto].
    right. exists errs, pmin, pmax, prel, pabs, mask. repeat (split; [auto|]). rewrite <- EE.
    unfold sbind at 1. fold (wgt_of errs).
    destruct (lm_outer _ _ _ _ _ _ _ _ _ _ _ _ _ _ _ _ _ _ _) as [[[o|]|e] tr']; cbn [lm_finish]; [|reflexivity|reflexivity].
    unfold sbind, slift. destruct (inv (o_alpha o)); [|reflexivity]. destruct (spread mask a); reflexivity.
  Qed.
  Lemma levmar_setup fo fi cfg data (p0 : list K) kw errs pmin pmax prel pabs mask :
    let n := length p0 in
    errs_of data kw = Ok errs -> mask_of n (k_pfix kw) = Ok mask ->
    bc_opt n (k_pmin kw) = Ok pmin -> bc_opt n (k_pmax kw) = Ok pmax ->
    bc_list n (match k_prel kw with Some l => l | None => [c_prel cfg] end) = Ok prel ->
    bc_list n (match k_pabs kw with Some l => l | None => [c_pabs cfg] end) = Ok pabs ->
    levmar_run f solve inv fo fi cfg data p0 kw [] =
    lm_finish data p0 mask
      (lm_outer f solve (nravel data) (wgt_of errs) p0 mask (option_map (sel mask) pmin) (option_map (sel mask) pmax) prel pabs cfg
                fo fi (sel mask p0) None (c_lambda0 cfg) 0%Z 0 []).
  Proof.
    intros n E0 E5 E1 E2 E3 E4.
    unfold levmar_run. fold n. fold (errs_of data kw).
    unfold sbind at 1. unfold slift at 1. rewrite E0.
    unfold sbind at 1. unfold slift at 1. rewrite E1.
    unfold sbind at 1. unfold slift at 1. rewrite E2.
    unfold sbind at 1. unfold slift at 1. rewrite E3.
    unfold sbind at 1. unfold slift at 1. rewrite E4.
    unfold sbind at 1. unfold slift at 1. rewrite E5.
    unfold sbind at 1. fold (wgt_of errs).
    destruct (lm_outer _ _ _ _ _ _ _ _ _ _ _ _ _ _ _ _ _ _ _) as [[[o|]|e] tr']; cbn [lm_finish]; [|reflexivity|reflexivity].
    unfold sbind, slift. destruct (inv (o_alpha o)); [|reflexivity]. destruct (spread mask a); reflexivity.
  Qed.
End Unfold.
Lemma nth_zipw2 {A B C} (f : A -> B -> C) l m i da db dc : (i < Nat.min (length l) (length m))%nat ->
  nth i (zipw f l m) dc = f (nth i l da) (nth i m db).
Proof. intros H. apply nth_zipw; lia. Qed.
