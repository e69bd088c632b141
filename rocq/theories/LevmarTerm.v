(* Termination of the loops of levmar (npplus/lsqfit.py:332-377) and the number of calls. *)
From Coq Require Import List Arith ZArith Bool Lia Reals Lra.
From Verif Require Import Num PyBase NdArray NdLemmas PwPoly RSum SolvePer SolveProofs LsqModel Levmar LevmarProofs.
Import ListNotations.

Section Count.
  Context {K : Type} {NK : Num K}.
  Variable f : @lfun K.
  Variables (p0 : list K) (pmask : list bool) (pmin pmax : option (list K)) (prel pabs : list K).
  (* extra calls for the partial derivatives *)
  Definition npart : nat := match f with LPlain _ => nfree pmask | LGen _ => 0 end.
  Definition short (n : nat) (tr : trace K) : Prop := length tr <= n.
  Lemma sel_le {A} mask (l : list A) : length (sel mask l) <= nfree mask.
  Proof.
    unfold nfree. revert l; induction mask as [|[|] mask IH]; intros [|x l]; cbn; try lia.
    - specialize (IH l). lia.
    - apply IH.
  Qed.
  Lemma np_flip_le fp dp dps : np_flip pmin pmax fp dp = Ok dps -> length dps <= length dp.
  Proof.
    unfold np_flip. destruct pmax as [hi|]; [|intros H; injection H as <-; auto].
    assert (L : length (zipw (fun (m : bool) d => if m then nmul d (nopp n1) else d)
       (zipw (fun xd h => nltb h (nadd (fst xd) (snd xd))) (combine fp dp) hi) dp) <= length dp).
    { rewrite !zipw_length, combine_length. lia. }
    destruct (existsb _ _).
    - destruct pmin as [lo|]; [destruct (existsb _ _); [discriminate|]|]; intros H; injection H as <-; exact L.
    - intros H. injection H as <-. exact L.
  Qed.
  Lemma c_call h q n : hoare (short n) (call_plain h q) (fun _ => short (S n)) (fun _ => short (S n)).
  Proof.
    intros tr Ht. unfold call_plain. assert (short (S n) (tr ++ [q])) by (unfold short in *; rewrite app_length; cbn; lia).
    destruct (h _ _); assumption.
  Qed.
  Lemma c_loop h pf fp f0 : forall dps i n,
    hoare (short n) (np_loop h pmask pf fp f0 i dps) (fun _ => short (n + length dps)) (fun _ => short (n + length dps)).
  Proof.
    induction dps as [|d dps IH]; intros i n; cbn [np_loop length].
    - apply h_ret. unfold short. intros; lia.
    - destruct (neqb d n0); [apply h_lift; [discriminate|]; unfold short; intros; lia|].
      eapply h_bind; [eapply h_conseq; [| | |apply c_call]; eauto; unfold short; intros; cbn in *; lia|].
      intros v. eapply h_bind; [apply h_lift_pure; unfold short; intros; cbn in *; lia|]. intros df. cbn beta. apply h_pre. intros _.
      eapply h_bind; [eapply h_conseq; [| | |apply (IH (S i) (S n))]; eauto; unfold short; intros; cbn in *; lia|].
      intros rows. apply h_ret. unfold short. intros; cbn in *; lia.
  Qed.
  Lemma c_both p n : hoare (short n) (g_both f p0 pmask pmin pmax prel pabs p)
    (fun _ => short (n + 1 + npart)) (fun _ => short (n + 1 + npart)).
  Proof.
    unfold g_both, npart. destruct f as [h|h].
    - eapply h_bind; [eapply h_conseq; [| | |apply c_call]; eauto; unfold short; intros; cbn in *; lia|]. intros f0. cbn beta.
      eapply h_bind with (R := fun _ => short (n + 1 + nfree pmask)); [|intros d; apply h_ret; auto].
      unfold numerical_partials.
      eapply h_bind; [apply h_lift_pure; unfold short; intros; cbn in *; lia|]. intros dps. cbn beta. apply h_pre. intros Hd.
      apply np_flip_le in Hd. pose proof (sel_le pmask (zipw (fun rx a => nmax (nmul (fst rx) (nabs (snd rx))) a) (combine prel (put pmask p0 p)) pabs)) as L.
      fold (np_steps prel pabs pmask (put pmask p0 p)) in L.
      eapply h_bind; [eapply h_conseq; [| | |apply (c_loop h _ _ f0 dps 0 (S n))]; eauto; unfold short; intros; cbn in *; lia|].
      intros rows. apply h_lift; unfold short; intros; lia.
    - eapply h_bind with (R := fun _ => short (n + 1 + 0)).
      { intros tr Ht. unfold call_gen, short in *. rewrite app_length. cbn. lia. }
      intros y. eapply h_bind; [apply h_lift_pure; auto|]. intros f0. cbn beta. apply h_pre. intros _.
      eapply h_bind; [apply h_lift_pure; auto|]. intros d. cbn beta. apply h_pre. intros _.
      eapply h_bind; [apply h_lift_pure; auto|]. intros d'. cbn beta. apply h_pre. intros _. apply h_ret. auto.
  Qed.
  Lemma c_next p n : hoare (short n) (g_next f p0 pmask p) (fun _ => short (S n)) (fun _ => short (S n)).
  Proof.
    unfold g_next. destruct f as [h|h]; [apply c_call|].
    eapply h_bind with (R := fun _ => short (S n)).
    { intros tr Ht. unfold call_gen, short in *. rewrite app_length. cbn. lia. }
    intros y. apply h_lift; auto.
  Qed.
End Count.

Local Open Scope R_scope.
Section Term.
  Variable f : @lfun R.
  Variable solve : arr2 R -> list R -> res (list R).
  Variables (data wgt : nd R) (p0 : list R) (pmask : list bool)
            (pmin pmax : option (list R)) (prel pabs : list R) (cfg : @lmcfg R).
  Let gain := c_gain cfg.
  Let lam0 := c_lambda0 cfg.
  Hypothesis Hgain : 1 < gain.
  Hypothesis Hlam : 0 < lam0.
  Variable L : nat.
  Hypothesis HL : c_lambdax cfg < lam0 * gain ^ L.
  (* number of passes of the outer loop *)
  Let it : nat := Nat.max (Z.to_nat (c_itmax cfg)) 1.
  Let np := npart f pmask.

  Lemma t_inner fuel : forall p1 c1 al be lam neval m k n,
    lam * gain ^ k = lam0 * gain ^ m -> (m <= L + k)%nat -> (L + k + 1 - m <= fuel)%nat ->
    hoare (short n) (lm_inner f solve data wgt p0 pmask pmin pmax cfg fuel p1 c1 al be lam neval)
      (fun r tr => exists p c lam' neval' m', r = Some (p, c, lam', neval') /\
         lam' * gain ^ k = lam0 * gain ^ m' /\ (m <= m' <= L + k)%nat /\ neval' = (neval + (m' - m) + 1)%nat /\
         short (n + (m' - m) + 1) tr)
      (fun _ => short (n + (L + k - m) + 1)).
  Proof.
    induction fuel as [|fuel IH]; intros p1 c1 al be lam neval m k n Hl Hm Hf; [lia|]. cbn [lm_inner].
    eapply h_bind; [apply h_lift_pure; unfold short; intros; lia|]. intros step. cbn beta. apply h_pre. intros _.
    eapply h_bind; [eapply h_conseq; [| | |apply c_next]; eauto; unfold short; intros; cbn in *; lia|]. intros v. cbn beta.
    eapply h_bind; [apply h_lift_pure; unfold short; intros; lia|]. intros c. cbn beta. apply h_pre. intros _.
    destruct (nltb c _ || _).
    - apply h_ret. intros tr Ht. do 4 eexists. exists m. split; [reflexivity|]. split; [exact Hl|]. split; [lia|]. split; [lia|].
      unfold short in *. lia.
    - destruct (nltb (c_lambdax cfg) (lam * c_gain cfg)%K) eqn:E; [apply h_lift; [discriminate|]; unfold short; intros; lia|].
      assert (Hl' : lam * gain * gain ^ k = lam0 * gain ^ S m) by (cbn [pow]; transitivity (lam * gain ^ k * gain); [ring|rewrite Hl; ring]).
      assert (Hm' : (S m <= L + k)%nat).
      { numR. destruct (Rltb_spec (c_lambdax cfg) (lam * c_gain cfg)) as [|Hn]; [discriminate|]. apply Rnot_lt_le in Hn. fold gain in Hn.
        destruct (Nat.le_gt_cases (S m) (L + k)) as [|Hgt]; auto. exfalso.
        assert (P : 0 < gain ^ k) by (apply pow_lt; lra).
        assert (A : lam * gain * gain ^ k < lam0 * gain ^ (L + k)).
        { rewrite pow_add. rewrite <- Rmult_assoc. apply Rmult_lt_compat_r; [exact P|]. lra. }
        rewrite Hl' in A. apply Rmult_lt_reg_l in A; [|exact Hlam].
        assert (gain ^ (L + k) <= gain ^ S m) by (apply Rle_pow; [lra|lia]). lra. }
      eapply h_conseq; [| | |apply (IH p1 c1 al be _ (S neval) (S m) k (S n) Hl' Hm')]; [auto| | |lia].
      + intros r tr (p & c' & l' & ne & m' & H1 & H2 & H3 & H4 & H5). exists p, c', l', ne, m'. repeat split; auto; try lia.
        unfold short in *. lia.
      + unfold short. intros; lia.
  Qed.

  Lemma t_outer fi : (L + it <= fi)%nat -> forall fuel p chi lam k m neval n,
    (k < it)%nat -> (it - k <= fuel)%nat -> lam * gain ^ k = lam0 * gain ^ m -> (m <= L + k)%nat ->
    (neval <= 2 * k + m)%nat -> (n <= k * (2 + np) + m)%nat ->
    hoare (short n)
      (lm_outer f solve data wgt p0 pmask pmin pmax prel pabs cfg fuel fi p chi lam (Z.of_nat k) neval)
      (fun r tr => short (it * (3 + np) + L) tr /\ exists o, r = Some o /\ (o_neval o <= 3 * it + L)%nat /\ (o_niter o <= Z.of_nat it)%Z)
      (fun _ => short (it * (3 + np) + L)).
  Proof.
    intros Hfi. induction fuel as [|fuel IH]; intros p chi lam k m neval n Hk Hfu Hl Hm Hne Hn; [lia|]. cbn [lm_outer].
    assert (B : (n + 1 + np + (L + k - m) + 1 <= it * (3 + np) + L)%nat) by nia.
    eapply h_bind; [eapply h_conseq; [| | |apply c_both]; eauto; unfold short; intros; cbn beta in *; fold np in H; lia|]. intros fd. cbn beta. fold np.
    assert (HE : forall (e : exn) (tr : trace R), short (n + 1 + np) tr -> short (it * (3 + np) + L) tr) by (unfold short; intros; lia).
    eapply h_bind; [apply h_lift_pure, HE|]. intros dm. cbn beta. apply h_pre. intros _.
    eapply h_bind; [apply h_lift_pure, HE|]. intros wd. cbn beta. apply h_pre. intros _.
    eapply h_bind with (R := fun _ => short (n + 1 + np)).
    { destruct chi; [apply h_ret; auto|]. eapply h_bind; [apply h_lift_pure, HE|]. intros c. cbn beta. apply h_pre. intros _. apply h_ret; auto. }
    intros cc. cbn beta.
    eapply h_bind; [apply h_lift_pure, HE|]. intros beta. cbn beta. apply h_pre. intros _.
    eapply h_bind; [apply h_lift_pure, HE|]. intros wdd. cbn beta. apply h_pre. intros _.
    eapply h_bind; [apply h_lift_pure, HE|]. intros alpha. cbn beta. apply h_pre. intros _.
    eapply h_bind; [apply h_lift_pure, HE|]. intros al. cbn beta. apply h_pre. intros _.
    destruct (neqb (fst cc) n0).
    { apply h_ret. intros tr Ht. split; [apply (HE TypeError), Ht|]. eexists. split; [reflexivity|]. cbn. lia. }
    eapply h_bind; [apply h_lift_pure, HE|]. intros be. cbn beta. apply h_pre. intros _.
    eapply h_bind; [eapply h_conseq; [intros ? H; exact H|intros ? ? H; exact H| |apply (t_inner fi p (fst cc) al be lam (S neval) m k (n + 1 + np) Hl Hm)]|].
    { unfold short. intros; lia. }
    { lia. }
    intros r. cbn beta. intros tr (p' & c' & lam' & neval' & m' & -> & H1 & H2 & H3 & H4).
    destruct (nleb _ _).
    { cbn. split; [unfold short in *; lia|]. eexists. split; [reflexivity|]. cbn. lia. }
    destruct (Z.leb_spec (c_itmax cfg) (Z.of_nat k + 1)).
    { cbn. split; [unfold short in *; lia|]. eexists. split; [reflexivity|]. cbn. lia. }
    replace (Z.of_nat k + 1)%Z with (Z.of_nat (S k)) by lia.
    refine (IH p' (Some (c', snd cc)) _ (S k) m' neval' (n + 1 + np + (m' - m) + 1)%nat _ _ _ _ _ _ tr H4).
    - lia.
    - lia.
    - numR. fold gain. cbn [pow]. transitivity (lam' * gain ^ k); [field; lra|exact H1].
    - lia.
    - lia.
    - lia.
  Qed.
End Term.

(* With well-shaped function values and a linear solver that fails only with LinAlgError,
   the only exceptions are LevmarError and LinAlgError. *)
Section Only.
  Variable f : @lfun R.
  Variable solve : arr2 R -> list R -> res (list R).
  Variables (data wgt : nd R) (p0 : list R) (pmask : list bool)
            (pmin pmax : option (list R)) (prel pabs : list R) (cfg : @lmcfg R) (N : nat).
  Let nf := nfree pmask.
  Hypothesis Hmask : length pmask = length p0.
  Hypothesis Hmin : forall l, pmin = Some l -> length l = nf.
  Hypothesis Hmax : forall l, pmax = Some l -> length l = nf.
  Hypothesis Hrel : length prel = length p0.
  Hypothesis Habs : length pabs = length p0.
  Hypothesis Hdata : shp data = [N].
  Hypothesis Hwgt : shp wgt = [N].
  Hypothesis Hnf : (0 < nf)%nat.
  Hypothesis Hf : match f with
    | LPlain h => (forall k p, length p = length p0 -> exists v, h k p = Ok v /\ shp v = [N]) /\
                  (pmin = None \/ pmax = None) /\ (forall i, (i < length p0)%nat -> 0 < nth i pabs 0)
    | LGen h => forall k p, length p = length p0 -> exists v d, h k p = (Ok v, Ok d) /\ shp v = [N] /\ shp d = [length p0; N]
    end.
  (* whether singular matrices are possible *)
  Variable Sing : Prop.
  Let T (tr : trace R) : Prop := True.
  Let Lev (e : exn) (tr : trace R) : Prop := e = LevmarError \/ (Sing /\ e = LinAlgError).

  Lemma map2_NN {A B C} (g : A -> B -> C) (a : nd A) (b : nd B) : shp a = [N] -> shp b = [N] -> exists c, nd_map2 g a b = Ok c /\ shp c = [N].
  Proof. intros Ha Hb. rewrite (nd_map2_same g a b [N] Ha Hb). eauto. Qed.
  Lemma o_lift {A} (r : res A) (a : A) (P : A -> Prop) : r = Ok a -> P a -> hoare T (slift r) (fun a tr => T tr /\ P a) Lev.
  Proof. intros -> H. apply h_lift; [|discriminate]. intros b tr Hb _. injection Hb as <-. split; auto. exact I. Qed.

  Lemma o_loop h fp f0 : (forall k p, length p = length p0 -> exists v, h k p = Ok v /\ shp v = [N]) -> shp f0 = [N] ->
    forall dps i, (forall j, (j < length dps)%nat -> nth j dps 0 <> 0) ->
    hoare T (np_loop h pmask (put pmask p0 fp) fp f0 i dps)
      (fun rows tr => T tr /\ (length rows = length dps /\ Forall (fun r => shp r = [N]) rows)) Lev.
  Proof.
    clear Hf. intros Hh Hf0. induction dps as [|d dps IH]; intros i Hd; cbn [np_loop].
    - apply h_ret. intros tr _. split; [exact I|]. split; auto.
    - pose proof (Hd 0%nat ltac:(cbn; lia)) as Hd0. cbn in Hd0. numR. destruct (Reqb_spec d 0); [contradiction|].
      eapply h_bind with (R := fun v tr => T tr /\ shp v = [N]).
      { intros tr _. unfold call_plain.
        match goal with |- context [h ?a ?b] => destruct (Hh a b) as (v & -> & Hv); [rewrite !put_length; reflexivity|] end.
        split; [exact I|exact Hv]. }
      intros v. cbn beta. apply h_pre. intros Hv.
      destruct (map2_NN Rminus v f0 Hv Hf0) as (df & E & Hdf).
      eapply h_bind; [apply (o_lift _ df (fun a => shp a = [N]) E Hdf)|]. intros df'. cbn beta. apply h_pre. intros Hdf'.
      eapply h_bind; [apply (IH (S i))|].
      + intros j Hj. apply (Hd (S j)). cbn. lia.
      + intros rows. cbn beta. apply h_ret. intros tr (_ & H1 & H2). split; [exact I|]. split; [cbn; lia|].
        constructor; auto.
  Qed.
  Lemma o_stack (rows : list (nd R)) : (0 < length rows)%nat -> Forall (fun r => shp r = [N]) rows ->
    exists d, np_stack rows = Ok d /\ shp d = [length rows; N].
  Proof.
    clear Hf. intros H0 H. unfold np_stack. destruct rows as [|r rows]; [cbn in H0; lia|].
    inversion H as [|? ? Hr Hrs]; subst.
    match goal with |- context [forallb ?g ?l] => replace (forallb g l) with true end.
    - eexists. split; [reflexivity|]. cbn [shp]. rewrite Hr. reflexivity.
    - symmetry. apply forallb_forall. intros q Hq. rewrite Forall_forall in H. rewrite (H q Hq), Hr.
      destruct (list_eq_dec Nat.eq_dec [N] [N]); [reflexivity|contradiction].
  Qed.
  Lemma o_flip fp dp : length fp = nf -> length dp = nf -> (pmin = None \/ pmax = None) -> (forall j, (j < nf)%nat -> 0 < nth j dp 0) ->
    exists dps, np_flip pmin pmax fp dp = Ok dps /\ length dps = nf /\ forall j, (j < nf)%nat -> nth j dps 0 <> 0.
  Proof.
    clear Hf. intros L1 L2 Hm Hp. unfold np_flip. destruct pmax as [hi|].
    - destruct Hm as [->|]; [|discriminate]. specialize (Hmax hi eq_refl).
      set (mask := zipw _ _ _). set (dp' := zipw _ mask dp).
      assert (Lm : length mask = nf) by (unfold mask; rewrite zipw_length, combine_length; lia).
      exists dp'. split; [destruct (existsb _ _); reflexivity|]. split; [unfold dp'; rewrite zipw_length; lia|].
      intros j Hj. unfold dp'. rewrite (nth_zipw2 _ _ _ _ false 0) by lia. specialize (Hp j Hj). numR. destruct (nth j mask false); lra.
    - exists dp. repeat split; auto. intros j Hj. specialize (Hp j Hj). lra.
  Qed.
  Lemma o_steps fp : (forall i, (i < length p0)%nat -> 0 < nth i pabs 0) ->
    forall j, (j < nf)%nat -> 0 < nth j (np_steps prel pabs pmask (put pmask p0 fp)) 0.
  Proof.
    clear Hf. intros Hp j Hj. destruct (rank_onto pmask j Hj) as (i & Hi & <-). unfold np_steps. rewrite sel_nth by exact Hi.
    assert (Li : (i < length p0)%nat).
    { destruct (Nat.lt_ge_cases i (length p0)); auto. rewrite nth_overflow in Hi by lia. discriminate. }
    rewrite (nth_zipw2 _ _ _ _ (0, 0) 0) by (rewrite ?combine_length, ?put_length; lia). rewrite nmax_R.
    apply Rlt_le_trans with (nth i pabs 0); [apply Hp, Li|apply Rmax_r].
  Qed.
  Lemma o_both p : length p = nf -> hoare T (g_both f p0 pmask pmin pmax prel pabs p)
    (fun r tr => T tr /\ (shp (fst r) = [N] /\ shp (snd r) = [nf; N])) Lev.
  Proof.
    intros Lp. unfold g_both. destruct f as [h|h].
    - destruct Hf as (Hh & Hpm & Hpa).
      eapply h_bind with (R := fun v tr => T tr /\ shp v = [N]).
      { intros tr _. unfold call_plain. destruct (Hh (length tr) (put pmask p0 p)) as (v & -> & Hv); [apply put_length|]. split; [exact I|exact Hv]. }
      intros f0. cbn beta. apply h_pre. intros Hf0.
      eapply h_bind with (R := fun d tr => T tr /\ shp d = [nf; N]).
      + unfold numerical_partials. rewrite sel_put by auto.
        assert (Ls : length (np_steps prel pabs pmask (put pmask p0 p)) = nf).
        { unfold np_steps. apply sel_length. rewrite zipw_length, combine_length, put_length. lia. }
        destruct (o_flip p _ Lp Ls Hpm (o_steps p Hpa)) as (dps & E & Ld & Hd).
        eapply h_bind; [apply (o_lift _ dps (fun x => x = dps) E eq_refl)|]. intros dps'. cbn beta. apply h_pre. intros ->.
        eapply h_bind; [apply (o_loop h p f0 Hh Hf0 dps 0); rewrite Ld; exact Hd|].
        intros rows. cbn beta. apply h_pre. intros [Lr Hr].
        destruct (o_stack rows ltac:(lia) Hr) as (d & Ed & Sd).
        apply (o_lift _ d (fun x => shp x = [nf; N]) Ed). rewrite Sd, Lr, Ld. reflexivity.
      + intros d. cbn beta. apply h_ret. intros tr [_ H]. split; [exact I|]. split; assumption.
    - eapply h_bind with (R := fun y tr => T tr /\ exists v d, y = (Ok v, Ok d) /\ shp v = [N] /\ shp d = [length p0; N]).
      { intros tr _. unfold call_gen. split; [exact I|]. apply Hf, put_length. }
      intros y. cbn beta. apply h_pre. intros (v & d & -> & Hv & Hd).
      eapply h_bind; [apply (o_lift _ v (fun x => x = v) eq_refl eq_refl)|]. intros v'. cbn beta. apply h_pre. intros ->.
      eapply h_bind; [apply (o_lift _ d (fun x => x = d) eq_refl eq_refl)|]. intros d'. cbn beta. apply h_pre. intros ->.
      assert (E : exists q, sel_rows pmask d = Ok q /\ shp q = [nf; N]).
      { unfold sel_rows. rewrite Hd, <- Hmask, Nat.eqb_refl. eexists. split; [reflexivity|]. cbn [shp].
        rewrite sel_length by (rewrite seq_length; reflexivity). reflexivity. }
      destruct E as (q & E & Sq).
      eapply h_bind; [apply (o_lift _ q (fun x => shp x = [nf; N]) E Sq)|]. intros q'. cbn beta. apply h_pre. intros Hq.
      apply h_ret. intros tr _. split; [exact I|]. split; assumption.
  Qed.
  Lemma o_next p : hoare T (g_next f p0 pmask p) (fun v tr => T tr /\ shp v = [N]) Lev.
  Proof.
    unfold g_next. destruct f as [h|h].
    - destruct Hf as (Hh & _). intros tr _. unfold call_plain.
      destruct (Hh (length tr) (put pmask p0 p)) as (v & -> & Hv); [apply put_length|]. split; [exact I|exact Hv].
    - intros tr _. unfold sbind, call_gen, slift.
      destruct (Hf (length tr) (put pmask p0 p) (put_length _ _ _)) as (v & d & -> & Hv & _). split; [exact I|exact Hv].
  Qed.
  Lemma o_chisq v : shp v = [N] -> exists c, chisq data wgt v = Ok c.
  Proof.
    intros Hv. unfold chisq. destruct (map2_NN nsub data v Hdata Hv) as (dm & -> & S1). cbn [bind].
    destruct (map2_NN nmul wgt dm Hwgt S1) as (b & -> & S2). cbn [bind].
    destruct (map2_NN nmul b dm S2 S1) as (c & -> & S3). cbn [bind]. eauto.
  Qed.
  (* a is the sum over the data points of wgt * dfdp * dfdp, for the partial derivatives
     dfdp of the free parameters at some parameters q *)
  Definition normal_of (a : arr2 R) : Prop :=
    nr a = nf /\ SolvePer.nc a = nf /\ exists q f0 d tr0 tr1,
      length q = nf /\ g_both f p0 pmask pmin pmax prel pabs q tr0 = (Ok (f0, d), tr1) /\ shp d = [nf; N] /\
      forall i j, (i < nf)%nat -> (j < nf)%nat -> at2 a i j = rsum N (fun k => get wgt [k] * get d [i; k] * get d [j; k]).
  Hypothesis Hgain : 0 < c_gain cfg.
  Hypothesis Hsolve : forall a lam b, normal_of a -> 0 <= lam -> length b = nf ->
    (exists x, solve (damped a lam) b = Ok x /\ length x = nf) \/ (Sing /\ solve (damped a lam) b = Err LinAlgError).
  Lemma clip_len' p1 x : length p1 = nf -> length x = nf -> length (clip pmin pmax (zipw nadd p1 x)) = nf.
  Proof.
    clear Hsolve Hf. intros L1 L2.
    unfold clip. destruct pmin as [lo|], pmax as [hi|]; rewrite ?zipw_length, ?(Hmin _ eq_refl), ?(Hmax _ eq_refl); lia.
  Qed.
  Lemma o_inner fuel : forall p1 c1 al be lam neval, length p1 = nf -> normal_of al -> 0 <= lam -> length be = nf ->
    hoare T (lm_inner f solve data wgt p0 pmask pmin pmax cfg fuel p1 c1 al be lam neval)
      (fun r tr => T tr /\ forall p c l n, r = Some (p, c, l, n) -> length p = nf /\ 0 <= l) Lev.
  Proof.
    induction fuel as [|fuel IH]; intros p1 c1 al be lam neval L1 NA Hlam Lb; cbn [lm_inner].
    - apply h_ret. intros tr _. split; [exact I|discriminate].
    - destruct (Hsolve al lam be NA Hlam Lb) as [(x & Ex & Lx)|[HS Ex]].
      2:{ intros tr _. unfold sbind, slift. rewrite Ex. right. split; [exact HS|reflexivity]. }
      eapply h_bind; [apply (o_lift _ x (fun y => y = x) Ex eq_refl)|]. intros x'. cbn beta. apply h_pre. intros ->.
      eapply h_bind; [apply o_next|]. intros v. cbn beta. apply h_pre. intros Hv.
      destruct (o_chisq v Hv) as (c & Ec).
      eapply h_bind; [apply (o_lift _ c (fun y => True) Ec I)|]. intros c'. cbn beta. apply h_pre. intros _.
      destruct (nltb c' _ || _).
      + apply h_ret. intros tr _. split; [exact I|]. intros p q l n H. injection H as <- _ <- _. split; [apply clip_len'; auto|exact Hlam].
      + destruct (nltb (c_lambdax cfg) _); [apply h_lift; [discriminate|]; intros e tr He _; injection He as <-; left; reflexivity|].
        apply IH; auto. numR. apply Rmult_le_pos; lra.
  Qed.
  Lemma o_outer fuel fi : forall p chi lam niter neval, length p = nf -> 0 <= lam ->
    hoare T (lm_outer f solve data wgt p0 pmask pmin pmax prel pabs cfg fuel fi p chi lam niter neval)
      (fun r tr => T tr /\ forall o, r = Some o -> normal_of (o_alpha o)) Lev.
  Proof.
    induction fuel as [|fuel IH]; intros p chi lam niter neval Lp Hlam; cbn [lm_outer].
    - apply h_ret. intros tr _. split; [exact I|discriminate].
    - eapply h_bind; [apply (h_self _ _ _ _ (o_both p Lp))|]. intros [f0 d]. cbn [fst snd].
      apply h_pre. intros (tr1 & trx & Etr). apply h_pre. intros [Sf Sd].
      destruct (map2_NN nsub data f0 Hdata Sf) as (dm & Edm & S1).
      eapply h_bind; [apply (o_lift _ dm (fun y => y = dm) Edm eq_refl)|]. intros dm'. cbn beta. apply h_pre. intros ->.
      destruct (map2_NN nmul wgt dm Hwgt S1) as (wd & Ewd & S2).
      eapply h_bind; [apply (o_lift _ wd (fun y => y = wd) Ewd eq_refl)|]. intros wd'. cbn beta. apply h_pre. intros ->.
      eapply h_bind with (R := fun _ => T).
      { destruct chi; [apply h_ret; auto|]. destruct (map2_NN nmul wd dm S2 S1) as (c & Ec & S3).
        eapply h_bind; [apply (o_lift _ c (fun y => True) Ec I)|]. intros c'. apply h_ret. intros; exact I. }
      intros cc. cbn beta.
      assert (E : exists be, dot_nn d wd = Ok be /\ shp be = [nf]).
      { unfold dot_nn. unfold ndim. rewrite Sd, S2. cbn [length last Nat.sub nth removelast]. rewrite Nat.eqb_refl.
        cbn [Nat.leb andb]. eexists. split; [reflexivity|]. reflexivity. }
      destruct E as (be & Ebe & Sbe).
      eapply h_bind; [apply (o_lift _ be (fun y => y = be) Ebe eq_refl)|]. intros be'. cbn beta. apply h_pre. intros ->.
      assert (E : exists wdd, nd_map2 nmul wgt d = Ok wdd /\ shp wdd = [nf; N]).
      { unfold nd_map2. rewrite Hwgt, Sd, bshape_comm, (bshape_of_bto [N] [nf; N]).
        - eexists. split; reflexivity.
        - unfold bto. cbn. rewrite Nat.eqb_refl. reflexivity. }
      destruct E as (wdd & Ewdd & Swdd).
      eapply h_bind; [apply (o_lift _ wdd (fun y => y = wdd) Ewdd eq_refl)|]. intros wdd'. cbn beta. apply h_pre. intros ->.
      assert (E : exists alpha, inner_nn wdd d = Ok alpha /\ shp alpha = [nf; nf]).
      { unfold inner_nn, ndim. rewrite Sd, Swdd. cbn [length last removelast]. rewrite Nat.eqb_refl.
        cbn [Nat.leb andb]. eexists. split; [reflexivity|]. reflexivity. }
      destruct E as (alpha & Eal & Sal).
      eapply h_bind; [apply (o_lift _ alpha (fun y => y = alpha) Eal eq_refl)|]. intros alpha'. cbn beta. apply h_pre. intros ->.
      assert (E : exists al, to_arr2 alpha = Ok al /\ nr al = nf /\ SolvePer.nc al = nf).
      { unfold to_arr2. rewrite Sal. eexists. split; [reflexivity|]. split; reflexivity. }
      destruct E as (al & Ea & A1 & A2).
      assert (NA : normal_of al).
      { split; [exact A1|]. split; [exact A2|]. exists p, f0, d, tr1, trx. split; [exact Lp|]. split; [exact Etr|]. split; [exact Sd|].
        intros i j Hi Hj. unfold to_arr2 in Ea. rewrite Sal in Ea. injection Ea as <-. cbn [at2].
        unfold inner_nn, ndim in Eal. rewrite Sd, Swdd in Eal. cbn [length last removelast] in Eal. rewrite Nat.eqb_refl in Eal.
        cbn [Nat.leb andb Nat.sub] in Eal. injection Eal as <-. cbn [get firstn skipn app]. rewrite ksum_rsum. apply rsum_ext. intros k Hk. numR.
        unfold nd_map2 in Ewdd. rewrite Hwgt, Sd, bshape_comm, (bshape_of_bto [N] [nf; N]) in Ewdd.
        - injection Ewdd as <-. cbn [get]. rewrite (bget_self d) by (rewrite Sd; repeat constructor; auto). f_equal. f_equal.
          unfold bget. rewrite Hwgt. unfold bidx. cbn. destruct (Nat.eqb_spec N 1); [f_equal; f_equal; lia|reflexivity].
        - unfold bto. cbn. rewrite Nat.eqb_refl. reflexivity. }
      eapply h_bind; [apply (o_lift _ al (fun y => y = al) Ea eq_refl)|]. intros al'. cbn beta. apply h_pre. intros ->.
      destruct (neqb (fst cc) n0).
      { apply h_ret. intros tr _. split; [exact I|]. intros o Ho. injection Ho as <-. exact NA. }
      assert (E : exists bl, to_list1 be = Ok bl /\ length bl = nf).
      { unfold to_list1. rewrite Sbe. eexists. split; [reflexivity|]. rewrite map_length, seq_length. reflexivity. }
      destruct E as (bl & Ebl & Lbl).
      eapply h_bind; [apply (o_lift _ bl (fun y => y = bl) Ebl eq_refl)|]. intros bl'. cbn beta. apply h_pre. intros ->.
      eapply h_bind; [apply (o_inner fi p (fst cc) al bl lam (S neval) Lp NA Hlam Lbl)|].
      intros r. cbn beta. apply h_pre. intros Hr. destruct r as [[[[p' c'] lam'] neval']|].
      + destruct (Hr _ _ _ _ eq_refl) as [Lp' Hlam'].
        destruct (nleb _ _); [|destruct (Z.leb _ _)].
        * apply h_ret. intros tr _. split; [exact I|]. intros o Ho. injection Ho as <-. exact NA.
        * apply h_ret. intros tr _. split; [exact I|]. intros o Ho. injection Ho as <-. exact NA.
        * apply IH; [exact Lp'|]. numR. unfold Rdiv. apply Rmult_le_pos; [exact Hlam'|]. left. apply Rinv_0_lt_compat, Hgain.
      + apply h_ret. intros tr _. split; [exact I|discriminate].
  Qed.
End Only.

(* ---- the normal matrix ---- *)
Lemma sum_free (F : nat -> nat -> R) : forall mask,
  rsum (length mask) (fun m => if nth m mask false then F (rank_of mask m) m else 0) =
  rsum (nfree mask) (fun i => F i (nth i (sel mask (seq 0 (length mask))) 0%nat)).
Proof.
  assert (SA : forall (l : list bool) (b : bool) n, length l = n -> sel (l ++ [b]) (seq 0 (S n)) = sel l (seq 0 n) ++ (if b then [n] else [])).
  { intros l b n Hl. rewrite seq_S. cbn [plus].
    assert (G : forall (l : list bool) (x : list nat) (y : nat), length l = length x -> sel (l ++ [b]) (x ++ [y]) = sel l x ++ (if b then [y] else [])).
    { clear. induction l as [|a l IH]; intros [|z x] y H; cbn in *; try lia; [destruct b; reflexivity|].
      destruct a; cbn; [f_equal|]; apply IH; lia. }
    apply G. rewrite seq_length. exact Hl. }
  apply (rev_ind (fun mask => _)); [reflexivity|]. intros b mask IH. rewrite app_length. cbn [length]. rewrite Nat.add_1_r.
  change (rsum (S (length mask)) ?f) with (rsum (length mask) f + f (length mask)).
  rewrite (rsum_ext (length mask) _ (fun m => if nth m mask false then F (rank_of mask m) m else 0)).
  2:{ intros m Hm. rewrite app_nth1 by auto. unfold rank_of. rewrite firstn_app. replace (m - length mask)%nat with 0%nat by lia.
      cbn [firstn]. rewrite app_nil_r. reflexivity. }
  rewrite IH. rewrite app_nth2 by lia. rewrite Nat.sub_diag. cbn [nth].
  rewrite SA by reflexivity.
  assert (Ls : length (sel mask (seq 0 (length mask))) = nfree mask) by (apply sel_length; rewrite seq_length; reflexivity).
  assert (Nf : nfree (mask ++ [b]) = (nfree mask + (if b then 1 else 0))%nat).
  { unfold nfree. rewrite filter_app, app_length. destruct b; reflexivity. }
  rewrite Nf.
  rewrite (rsum_ext (nfree mask) _ (fun i => F i (nth i (sel mask (seq 0 (length mask)) ++ (if b then [length mask] else [])) 0%nat))).
  2:{ intros i Hi. rewrite app_nth1 by lia. reflexivity. }
  destruct b.
  - rewrite Nat.add_1_r. cbn [rsum]. f_equal. rewrite app_nth2 by lia. rewrite Ls, Nat.sub_diag. cbn [nth].
    f_equal. unfold rank_of. rewrite firstn_app, Nat.sub_diag, firstn_all. cbn [firstn]. rewrite app_nil_r. reflexivity.
  - rewrite Nat.add_0_r. ring.
Qed.

Lemma damped_nonsing n N (w : nat -> R) (d : nat -> nat -> R) (a : nat -> nat -> R) lam :
  (forall k, (k < N)%nat -> 0 < w k) -> 0 <= lam ->
  (forall i j, (i < n)%nat -> (j < n)%nat -> a i j = rsum N (fun k => w k * d i k * d j k)) ->
  (forall v, (forall k, (k < N)%nat -> rsum n (fun i => v i * d i k) = 0) -> forall i, (i < n)%nat -> v i = 0) ->
  forall v, (forall i, (i < n)%nat -> rsum n (fun j => a i j * (if (i =? j)%nat then 1 + lam else 1) * v j) = 0) ->
  forall i, (i < n)%nat -> v i = 0.
Proof.
  intros Hw Hl Ha Hind v Hv. apply Hind.
  assert (Q1 : rsum n (fun i => v i * rsum n (fun j => a i j * v j)) = rsum N (fun k => w k * (rsum n (fun i => v i * d i k)) ^ 2)).
  { transitivity (rsum n (fun i => rsum n (fun j => rsum N (fun k => w k * (v i * d i k) * (v j * d j k))))).
    - apply rsum_ext. intros i Hi. rewrite <- rsum_scal. apply rsum_ext. intros j Hj. rewrite Ha by auto.
      rewrite (rsum_ext N (fun k => w k * (v i * d i k) * (v j * d j k)) (fun k => v i * v j * (w k * d i k * d j k))) by (intros; ring).
      rewrite rsum_scal. ring.
    - rewrite (rsum_ext n _ (fun i => rsum N (fun k => w k * (v i * d i k) * rsum n (fun j => v j * d j k)))).
      + rewrite rsum_swap. apply rsum_ext. intros k Hk. rewrite rsum_scal_r.
        rewrite (rsum_scal n (w k) (fun i => v i * d i k)). ring.
      + intros i Hi. rewrite rsum_swap. apply rsum_ext. intros k Hk. rewrite rsum_scal. reflexivity. }
  assert (Q2 : rsum n (fun i => v i * rsum n (fun j => a i j * (if (i =? j)%nat then 1 + lam else 1) * v j)) =
               rsum n (fun i => v i * rsum n (fun j => a i j * v j)) + rsum n (fun i => lam * a i i * (v i) ^ 2)).
  { rewrite <- rsum_plus. apply rsum_ext. intros i Hi.
    rewrite (rsum_ext n _ (fun j => a i j * v j + (if (j =? i)%nat then lam * a i j * v j else 0))).
    - rewrite rsum_plus, rsum_delta. destruct (Nat.ltb_spec i n); [ring|lia].
    - intros j Hj. rewrite (Nat.eqb_sym j i). destruct (i =? j)%nat; ring. }
  assert (Z : rsum n (fun i => v i * rsum n (fun j => a i j * (if (i =? j)%nat then 1 + lam else 1) * v j)) = 0).
  { apply rsum_zero. intros i Hi. rewrite Hv by auto. ring. }
  assert (P1 : forall k, (k < N)%nat -> 0 <= w k * (rsum n (fun i => v i * d i k)) ^ 2).
  { intros k Hk. apply Rmult_le_pos; [left; auto|apply pow2_ge_0]. }
  assert (P2 : 0 <= rsum n (fun i => lam * a i i * (v i) ^ 2)).
  { apply rsum_nonneg. intros i Hi. apply Rmult_le_pos; [|apply pow2_ge_0]. apply Rmult_le_pos; [exact Hl|].
    rewrite Ha by auto. apply rsum_nonneg. intros k Hk. rewrite Rmult_assoc. apply Rmult_le_pos; [left; auto|]. apply Rle_0_sqr. }
  pose proof (rsum_nonneg N _ P1) as P3.
  assert (S0 : rsum N (fun k => w k * (rsum n (fun i => v i * d i k)) ^ 2) = 0) by lra.
  intros k Hk. pose proof (rsum_nonneg_0 N _ P1 S0 k Hk) as E. cbn beta in E. specialize (Hw k Hk).
  apply Rmult_integral in E as [E|E]; [lra|]. cbn [pow] in E. apply Rmult_integral in E as [E|E]; [exact E|]. lra.
Qed.
