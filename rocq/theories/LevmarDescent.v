(* The chi2 history of levmar (npplus/lsqfit.py:332-377) for a deterministic function. *)
From Coq Require Import List Arith ZArith Bool Lia Reals Lra.
From Verif Require Import Num PyBase NdArray NdLemmas PwPoly RSum SolvePer SolveProofs LsqModel Levmar LevmarProofs.
Import ListNotations.
Local Open Scope R_scope.

(* the value of f does not depend on the calls made before *)
Definition det_val {K} (f : @lfun K) (val : list K -> res (nd K)) : Prop :=
  match f with
  | LPlain h => forall k p, h k p = val p
  | LGen h => forall k p, fst (h k p) = val p
  end.

Section Descent.
  Variable pmask : list bool.
  (* chi2 of given free parameters *)
  Variable cst : list R -> R.
  (* the accepted iterates from p to q *)
  Definition hist (p q : list R) (l : list (list R)) : Prop :=
    l <> [] /\ nth 0 l [] = p /\ nth (length l - 1) l [] = q /\
    (forall i, (S (S i) < length l)%nat -> cst (nth (S i) l []) < cst (nth i l [])) /\
    match (length l - 1)%nat with
    | O => cst q = 0
    | S k => cst q < 1000001 / 1000000 * cst (nth k l []) \/ q = nth k l []
    end.

  Lemma c1000001_R : @c1000001 R _ = 1000001 / 1000000.
  Proof. unfold c1000001. numR. reflexivity. Qed.
  Lemma list_eqb_R : forall a b : list R, list_eqb a b = true -> a = b.
  Proof.
    induction a as [|x a IH]; intros [|y b]; cbn; try discriminate; auto.
    intros H. apply andb_true_iff in H as [H1 H2]. numR. destruct (Reqb_spec x y); [|discriminate]. subst. f_equal. auto.
  Qed.
  Lemma list_eqb_refl_R : forall a : list R, list_eqb a a = true.
  Proof. induction a as [|x a IH]; cbn; auto. rewrite IH. numR. destruct (Reqb_spec x x); [reflexivity|contradiction]. Qed.

  Variable Old : list (list R) -> Prop.
  (* calls only extend the trace; any property closed under extension is kept *)
  Hypothesis Old_app : forall tr q, Old tr -> Old (tr ++ [q]).

  Lemma ext_call h q : hoare Old (call_plain h q) (fun v tr => Old tr /\ In q tr /\ exists k, h k q = Ok v) (fun _ _ => True).
  Proof.
    intros tr Ht. unfold call_plain. destruct (h (length tr) q) eqn:E; [|exact I].
    repeat split; [apply Old_app, Ht|apply in_or_app; right; left; reflexivity|eauto].
  Qed.
  Lemma ext_loop h pf fp f0 : forall dps i,
    hoare Old (np_loop h pmask pf fp f0 i dps) (fun _ tr => Old tr) (fun _ _ => True).
  Proof.
    induction dps as [|d dps IH]; intros i; cbn [np_loop].
    - apply h_ret. auto.
    - destruct (neqb d n0); [apply h_lift; auto; discriminate|].
      eapply h_bind with (R := fun _ tr => Old tr).
      { eapply h_conseq; [| | |apply ext_call]; auto. cbn. intros ? ? H. apply H. }
      intros v. eapply h_bind; [apply h_lift_pure; auto|]. intros df. cbn beta. apply h_pre. intros _.
      eapply h_bind; [apply IH|]. intros rows. apply h_ret. auto.
  Qed.
End Descent.

Section Run.
  Variable f : @lfun R.
  Variable solve : arr2 R -> list R -> res (list R).
  Variable val : list R -> res (nd R).
  Hypothesis Hdet : det_val f val.
  Variables (data wgt : nd R) (p0 : list R) (pmask : list bool)
            (pmin pmax : option (list R)) (prel pabs : list R) (cfg : @lmcfg R).
  Variable cst : list R -> R.
  Hypothesis Hcst : forall p v c, val (put pmask p0 p) = Ok v -> chisq data wgt v = Ok c -> c = cst p.
  Hypothesis Hpos : forall p, 0 <= cst p.
  Hypothesis Htol : 0 <= c_tol cfg.
  Variable Old : list (list R) -> Prop.
  Hypothesis Old_app : forall tr q, Old tr -> Old (tr ++ [q]).
  Let called (p : list R) (tr : trace R) : Prop := In (put pmask p0 p) tr /\ exists v, val (put pmask p0 p) = Ok v.

  Lemma d_next p : hoare Old (g_next f p0 pmask p)
    (fun v tr => (Old tr /\ called p tr) /\ val (put pmask p0 p) = Ok v) (fun _ _ => True).
  Proof.
    unfold g_next. destruct f as [h|h]; cbn in Hdet.
    - eapply h_conseq; [| | |apply (ext_call Old Old_app)]; auto. cbn. intros v tr (H1 & H2 & k & H3). rewrite Hdet in H3. unfold called. eauto.
    - intros tr Ht. unfold sbind, call_gen, slift. rewrite Hdet. destruct (val _) eqn:Ev; [|exact I].
      split; auto. split; [apply Old_app, Ht|split; [apply in_or_app; right; left; reflexivity|eauto]].
  Qed.
  Lemma d_inner fuel : forall p1 c1 al be lam neval,
    hoare Old (lm_inner f solve data wgt p0 pmask pmin pmax cfg fuel p1 c1 al be lam neval)
      (fun r tr => Old tr /\
         match r with
         | None => True
         | Some (p, c, _, _) => called p tr /\ c = cst p /\ (c < 1000001 / 1000000 * c1 \/ p = p1)
         end) (fun _ _ => True).
  Proof.
    induction fuel as [|fuel IH]; intros p1 c1 al be lam neval; cbn [lm_inner].
    - apply h_ret. auto.
    - eapply h_bind; [apply h_lift_pure; auto|]. intros step. cbn beta. apply h_pre. intros Hs.
      set (p := clip pmin pmax (zipw nadd p1 step)).
      eapply h_bind; [apply d_next|]. intros v. cbn beta. apply h_pre. intros Hv.
      eapply h_bind; [apply h_lift_pure; auto|]. intros c. cbn beta. apply h_pre. intros Hc.
      pose proof (Hcst _ _ _ Hv Hc) as Ec.
      destruct (nltb c _ || _) eqn:E.
      + apply h_ret. intros tr [Ht Hcl]. split; auto. split; auto. split; auto.
        apply orb_true_iff in E as [E|E].
        * left. rewrite c1000001_R in E. numR. destruct (Rltb_spec c (1000001 / 1000000 * c1)); [assumption|discriminate].
        * right. apply list_eqb_R, E.
      + destruct (nltb (c_lambdax cfg) _); [apply h_lift; auto; discriminate|].
        eapply h_conseq; [| | |apply (IH p1 c1 al be)]; auto. tauto.
  Qed.
End Run.

Section Outer.
  Variable f : @lfun R.
  Variable solve : arr2 R -> list R -> res (list R).
  Variable val : list R -> res (nd R).
  Hypothesis Hdet : det_val f val.
  Variables (data wgt : nd R) (p0 : list R) (pmask : list bool)
            (pmin pmax : option (list R)) (prel pabs : list R) (cfg : @lmcfg R).
  Variable cst : list R -> R.
  Hypothesis Hcst : forall p v c, val (put pmask p0 p) = Ok v -> chisq data wgt v = Ok c -> c = cst p.
  Hypothesis Hpos : forall p, 0 <= cst p.
  Hypothesis Htol : 0 <= c_tol cfg.
  Let called (p : list R) (tr : trace R) : Prop := In (put pmask p0 p) tr /\ exists v, val (put pmask p0 p) = Ok v.

  Lemma hist_one p : cst p = 0 -> hist cst p p [p].
  Proof. intros H. split; [discriminate|]. cbn. repeat split; auto. intros i Hi. lia. Qed.
  Lemma hist_two p q : cst q < 1000001 / 1000000 * cst p \/ q = p -> hist cst p q [p; q].
  Proof. intros H. split; [discriminate|]. cbn. repeat split; auto. intros i Hi. lia. Qed.
  Lemma hist_cons p p' q l : cst p' < cst p -> hist cst p' q l -> hist cst p q (p :: l).
  Proof.
    intros Hlt (H0 & H1 & H2 & H3 & H4). destruct l as [|x l]; [contradiction|]. cbn in H1. subst x.
    split; [discriminate|]. cbn [length] in *.
    replace (S (S (length l)) - 1)%nat with (S (length l)) by lia.
    replace (S (length l) - 1)%nat with (length l) in H2, H4 by lia.
    repeat split; auto.
    - intros [|i] Hi; [exact Hlt|]. apply (H3 i). lia.
    - destruct (length l) as [|k] eqn:El.
      + cbn in H2. subst q. left. cbn [nth]. specialize (Hpos p). rewrite H4 in *. lra.
      + exact H4.
  Qed.

  Definition allcalled (l : list (list R)) (tr : trace R) : Prop := Forall (fun p => called p tr) l.
  Lemma called_app p tr q : called p tr -> called p (tr ++ [q]).
  Proof. unfold called. intros [H Hv]. split; [apply in_or_app|]; auto. Qed.
  Lemma allcalled_app l tr q : allcalled l tr -> allcalled l (tr ++ [q]).
  Proof. unfold allcalled. apply Forall_impl. intros a Ha. apply called_app, Ha. Qed.

  Lemma d_outer fuel fi : forall p chi lam niter neval (pre : list (list R)),
    (forall c c0, chi = Some (c, c0) -> c = cst p) ->
    hoare (allcalled pre)
      (lm_outer f solve data wgt p0 pmask pmin pmax prel pabs cfg fuel fi p chi lam niter neval)
      (fun r tr => allcalled pre tr /\ forall o, r = Some o ->
         o_chi2 o = cst (o_p o) /\ o_chi20 o = match chi with Some (_, c0) => c0 | None => cst p end /\
         exists l, hist cst p (o_p o) l /\ allcalled l tr /\
                   (Z.of_nat (length l) <= o_niter o - niter + 2)%Z /\ (o_niter o - niter < Z.of_nat (length l))%Z)
      (fun _ _ => True).
  Proof.
    induction fuel as [|fuel IH]; intros p chi lam niter neval pre Hchi; cbn [lm_outer].
    - apply h_ret. intros tr Ht. split; auto. discriminate.
    - eapply h_bind with (R := fun r tr => allcalled (p :: pre) tr /\ val (put pmask p0 p) = Ok (fst r)).
      { (* the first call of g(p) is f at p itself *)
        unfold g_both. destruct f as [h|h]; cbn in Hdet.
        - eapply h_bind with (R := fun v tr => allcalled (p :: pre) tr /\ val (put pmask p0 p) = Ok v).
          { intros tr Ht. unfold call_plain. rewrite Hdet. destruct (val _) eqn:Ev; [|exact I]. split; auto.
            constructor; [split; [apply in_or_app; right; left; reflexivity|eauto]|apply allcalled_app, Ht]. }
          intros v. cbn beta. apply h_pre. intros Hv.
          eapply h_bind with (R := fun _ tr => allcalled (p :: pre) tr).
          + unfold numerical_partials.
            eapply h_bind; [apply h_lift_pure; auto|]. intros dps. cbn beta. apply h_pre. intros _.
            eapply h_bind; [apply (ext_loop pmask (allcalled (p :: pre)))|].
            * intros tr q Hq. apply allcalled_app, Hq.
            * intros rows. apply h_lift; auto.
          + intros d. apply h_ret. auto.
        - eapply h_bind with (R := fun y tr => (In (put pmask p0 p) tr /\ allcalled pre tr) /\ fst y = val (put pmask p0 p)).
          { intros tr Ht. unfold call_gen. split; [|apply Hdet].
            split; [apply in_or_app; right; left; reflexivity|apply allcalled_app, Ht]. }
          intros y. cbn beta. apply h_pre. intros Hy.
          eapply h_bind; [apply h_lift_pure; auto|]. intros f0. cbn beta. apply h_pre. intros Hf. rewrite Hy in Hf.
          eapply h_bind; [apply h_lift_pure; auto|]. intros d. cbn beta. apply h_pre. intros _.
          eapply h_bind; [apply h_lift_pure; auto|]. intros d'. cbn beta. apply h_pre. intros _.
          apply h_ret. intros tr [Hin Hpre]. split; auto. constructor; [split; eauto|exact Hpre]. }
      intros [f0 d]. cbn [fst snd]. apply h_pre. intros Hv.
      eapply h_bind; [apply h_lift_pure; auto|]. intros dm. cbn beta. apply h_pre. intros Hdm.
      eapply h_bind; [apply h_lift_pure; auto|]. intros wd. cbn beta. apply h_pre. intros Hwd.
      eapply h_bind with (R := fun cc tr => allcalled (p :: pre) tr /\ fst cc = cst p /\
                                 snd cc = match chi with Some (_, c0) => c0 | None => cst p end).
      { destruct chi as [[c c0]|].
        - apply h_ret. intros tr Ht. split; auto. split; auto. apply (Hchi c c0 eq_refl).
        - eapply h_bind; [apply h_lift_pure; auto|]. intros c. cbn beta. apply h_pre. intros Hc. apply h_ret. intros tr Ht.
          assert (E : asum c = cst p).
          { apply (Hcst p f0); auto. unfold chisq. rewrite Hdm. cbn [bind]. rewrite Hwd. cbn [bind]. rewrite Hc. reflexivity. }
          cbn. auto. }
      intros [chi2 chi20]. cbn [fst snd]. apply h_pre. intros [Ec2 Ec0].
      eapply h_bind; [apply h_lift_pure; auto|]. intros beta. cbn beta. apply h_pre. intros _.
      eapply h_bind; [apply h_lift_pure; auto|]. intros wdd. cbn beta. apply h_pre. intros _.
      eapply h_bind; [apply h_lift_pure; auto|]. intros alpha. cbn beta. apply h_pre. intros _.
      eapply h_bind; [apply h_lift_pure; auto|]. intros al. cbn beta. apply h_pre. intros _.
      destruct (neqb chi2 n0) eqn:Ez.
      { apply h_ret. intros tr Ht. inversion_clear Ht as [|? ? Hp Hpre]. split; auto. intros o Ho. injection Ho as <-. cbn.
        repeat split; auto. numR. destruct (Reqb_spec chi2 0) as [E0|]; [|discriminate].
        exists [p]. split; [apply hist_one; congruence|]. split; [constructor; auto|]. cbn; lia. }
      assert (Hc0 : 0 < chi2).
      { numR. destruct (Reqb_spec chi2 0); [discriminate|]. specialize (Hpos p). rewrite <- Ec2 in Hpos. lra. }
      eapply h_bind; [apply h_lift_pure; auto|]. intros be. cbn beta. apply h_pre. intros _.
      eapply h_bind; [apply (d_inner f solve val Hdet data wgt p0 pmask pmin pmax cfg cst Hcst (allcalled (p :: pre)))|].
      { intros tr q Hq. apply allcalled_app, Hq. }
      intros r. cbn beta. destruct r as [[[[p' chi2'] lam'] neval']|].
      2:{ apply h_ret. intros tr [Ht _]. inversion_clear Ht. split; auto. discriminate. }
      match goal with |- hoare ?A _ _ _ => apply h_conseq with (I' := fun tr => allcalled (p' :: p :: pre) tr /\
        (chi2' = cst p' /\ (chi2' < 1000001 / 1000000 * chi2 \/ p' = p))) (Q' := fun r tr => allcalled pre tr /\ forall o, r = Some o ->
         o_chi2 o = cst (o_p o) /\ o_chi20 o = match chi with Some (_, c0) => c0 | None => cst p end /\
         exists l, hist cst p (o_p o) l /\ allcalled l tr /\
                   (Z.of_nat (length l) <= o_niter o - niter + 2)%Z /\ (o_niter o - niter < Z.of_nat (length l))%Z) (E' := fun _ _ => True) end; auto.
      { intros tr (H1 & H2 & H3 & H4). split; auto. constructor; auto. }
      apply h_pre. intros [Ec' Hacc].
      assert (Hstop : forall ni lm, (niter <= ni <= niter + 1)%Z -> hoare (allcalled (p' :: p :: pre)) (sret (Some (LmOut p' chi2' chi20 al ni neval' lm)))
        (fun r tr => allcalled pre tr /\ forall o, r = Some o ->
         o_chi2 o = cst (o_p o) /\ o_chi20 o = match chi with Some (_, c0) => c0 | None => cst p end /\
         exists l, hist cst p (o_p o) l /\ allcalled l tr /\
                   (Z.of_nat (length l) <= o_niter o - niter + 2)%Z /\ (o_niter o - niter < Z.of_nat (length l))%Z) (fun _ _ => True)).
      { intros ni lm Hni. apply h_ret. intros tr Ht. inversion_clear Ht as [|? ? Hp' Ht']. inversion_clear Ht' as [|? ? Hp Hpre].
        split; auto. intros o Ho. injection Ho as <-. cbn. repeat split; auto.
        exists [p; p']. split; [apply hist_two; rewrite <- Ec', <- Ec2; exact Hacc|].
        split; [constructor; auto|]. cbn. lia. }
      destruct (nleb _ _) eqn:Econv; [apply Hstop; lia|].
      destruct (Z.leb _ _); [apply Hstop; lia|].
      assert (Hlt : cst p' < cst p).
      { numR. destruct (Rleb_spec ((chi2 - chi2') / (chi2 + chi2') + (chi2 - chi2') / (chi2 + chi2')) (c_tol cfg)) as [|Hn]; [discriminate|].
        apply Rnot_le_lt in Hn. rewrite <- Ec', <- Ec2.
        assert (Hp' : 0 <= chi2') by (rewrite Ec'; apply Hpos).
        destruct (Rlt_le_dec chi2' chi2) as [|Hge]; auto. exfalso.
        assert ((chi2 - chi2') / (chi2 + chi2') <= 0).
        { unfold Rdiv. assert (0 < / (chi2 + chi2')) by (apply Rinv_0_lt_compat; lra). nra. }
        lra. }
      eapply h_conseq; [| | |apply (IH p' (Some (chi2', chi20)) _ (niter + 1)%Z neval' (p :: pre))]; auto.
      + intros tr Ht. inversion_clear Ht. assumption.
      + cbn. intros r tr [Ht Hr]. inversion_clear Ht as [|? ? Hp Hpre]. split; auto.
        intros o Ho. destruct (Hr o Ho) as (R1 & R2 & l & R3 & R4 & R5 & R6). repeat split; auto; [congruence|].
        exists (p :: l). split; [eapply hist_cons; eauto|]. split; [constructor; auto|]. cbn [length]. lia.
      + intros c c0 Hc. injection Hc as <- <-. exact Ec'.
  Qed.
End Outer.
