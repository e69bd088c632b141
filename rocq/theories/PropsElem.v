(* Properties C08-C13: max_, min_, abs_, atan, cum, zcen, pcen. *)
From Coq Require Import String List Arith ZArith Lia Bool Reals Lra Permutation.
From Verif Require Import Num PyBase NdArray NdLemmas Basic BasicProofs PropsBasic PropsCat.
Import ListNotations.

(* --- C08 ------------------------------------------------------------------- *)
(* u is the shape all shapes in l broadcast to (numpy broadcasting rule) *)
Definition bcast_all (l : list (list nat)) (u : list nat) : Prop :=
  (forall s, In s l -> length s <= length u) /\ (exists s, In s l /\ length s = length u) /\
  forall m, (forall s, In s l -> dimr s m = dimr u m \/ dimr s m = 1) /\
            exists s, In s l /\ dimr s m = dimr u m.
Lemma bdim_1_l b : bdim 1 b = Some b.
Proof. unfold bdim. destruct (Nat.eqb_spec 1 b); subst; auto. Qed.
Lemma bdim_cases a b u : (a = u \/ a = 1) -> (b = u \/ b = 1) ->
  bdim a b = Some (if (a =? u) || (b =? u) then u else 1).
Proof.
  intros [-> | ->] [-> | ->].
  - rewrite Nat.eqb_refl. apply bdim_refl.
  - rewrite Nat.eqb_refl, bdim_comm. apply bdim_1_l.
  - rewrite Nat.eqb_refl, orb_true_r. apply bdim_1_l.
  - rewrite bdim_refl. destruct (Nat.eqb_spec 1 u); subst; auto.
Qed.
Lemma brev_defined s t : (forall m, bdim (nth m s 1) (nth m t 1) <> None) -> exists v, brev s t = Some v.
Proof.
  revert t; induction s as [|a s IH]; intros [|b t] H; cbn; eauto.
  destruct (bdim a b) eqn:E; [|exfalso; apply (H 0); exact E].
  destruct (IH t) as [v ->]; [|eauto]. intros m. apply (H (S m)).
Qed.
Lemma bshape_defined s t : (forall m, bdim (dimr s m) (dimr t m) <> None) -> exists v, bshape s t = Some v.
Proof.
  intros H. unfold bshape. destruct (brev_defined (rev s) (rev t)) as [v ->]; [exact H|]. cbn. eauto.
Qed.
Lemma bcast_all_cons a b l u :
  bcast_all (a :: b :: l) u <-> exists v, bshape a b = Some v /\ bcast_all (v :: l) u.
Proof.
  split.
  - intros (H1 & H2 & H3).
    assert (D : forall m, bdim (dimr a m) (dimr b m) =
              Some (if (dimr a m =? dimr u m) || (dimr b m =? dimr u m) then dimr u m else 1)).
    { intros m. apply bdim_cases; apply (proj1 (H3 m)); cbn; auto. }
    destruct (bshape_defined a b) as [v Hv]; [intros m; rewrite D; discriminate|].
    exists v. split; [exact Hv|]. apply bshape_some_iff in Hv as [Lv Dv].
    assert (Dv' : forall m, dimr v m = if (dimr a m =? dimr u m) || (dimr b m =? dimr u m) then dimr u m else 1).
    { intros m. specialize (Dv m). rewrite D in Dv. congruence. }
    assert (La := H1 a (or_introl eq_refl)). assert (Lb := H1 b (or_intror (or_introl eq_refl))).
    split; [|split].
    + intros s [<-|Hs]; [lia|]. apply H1. cbn. auto.
    + destruct H2 as (s & [<-|[<-|Hs]] & E); [exists v|exists v|exists s]; cbn; split; auto; lia.
    + intros m. split.
      * intros s [<-|Hs]; [|apply (proj1 (H3 m)); cbn; auto].
        rewrite Dv'. destruct (_ || _); auto.
      * destruct (H3 m) as (_ & s & [<-|[<-|Hs]] & E).
        -- exists v. split; [left; auto|]. rewrite Dv', E, Nat.eqb_refl. reflexivity.
        -- exists v. split; [left; auto|]. rewrite Dv', E, Nat.eqb_refl, orb_true_r. reflexivity.
        -- exists s. split; [right; auto|auto].
  - intros (v & Hv & H1 & H2 & H3). apply bshape_some_iff in Hv as [Lv Dv].
    assert (Lv' := H1 v (or_introl eq_refl)).
    split; [|split].
    + intros s [<-|[<-|Hs]]; [lia|lia|]. apply H1. cbn. auto.
    + destruct H2 as (s & [<-|Hs] & E).
      * destruct (Nat.max_spec (length a) (length b)) as [[_ M]|[_ M]]; [exists b|exists a]; cbn; split; auto; lia.
      * exists s. cbn. auto.
    + intros m. destruct (bdim_bto _ _ _ (Dv m)) as (A & B & C). split.
      * intros s [<-|[<-|Hs]].
        -- destruct (proj1 (H3 m) v (or_introl eq_refl)); lia.
        -- destruct (proj1 (H3 m) v (or_introl eq_refl)); lia.
        -- apply (proj1 (H3 m)); cbn; auto.
      * destruct (H3 m) as (_ & s & [<-|Hs] & E).
        -- destruct C; [exists a|exists b]; cbn; split; auto; lia.
        -- exists s. cbn. auto.
Qed.
Lemma bcast_all_one a u : bcast_all [a] u <-> a = u.
Proof.
  split.
  - intros (_ & (s & [<-|[]] & L) & H). apply (f_equal (@rev nat)) in L || idtac.
    rewrite <- (rev_involutive a), <- (rev_involutive u). f_equal.
    apply nth_ext with (d:=1) (d':=1); [rewrite !rev_length; auto|].
    intros m _. destruct (H m) as (_ & s & [<-|[]] & E). exact E.
  - intros <-. split; [|split].
    + intros s [<-|[]]; auto.
    + exists a; cbn; auto.
    + intros m. split; [intros s [<-|[]]; auto|]. exists a; cbn; auto.
Qed.
Lemma bcast_all_perm l l' u : Permutation l l' -> bcast_all l u -> bcast_all l' u.
Proof.
  intros P (H1 & (s & Hs & E) & H3).
  assert (I : forall x, In x l' -> In x l) by (intros x Hx; eapply Permutation_in; [apply Permutation_sym; eauto|auto]).
  assert (J : forall x, In x l -> In x l') by (intros x Hx; eapply Permutation_in; eauto).
  split; [auto|]. split; [exists s; auto|]. intros m. destruct (H3 m) as (A & t & Ht & Et).
  split; [auto|]. exists t; auto.
Qed.
Lemma bcast_all_bto l u s : bcast_all l u -> In s l -> bto s u = true.
Proof. intros (H1 & _ & H3) Hs. apply bto_iff. split; [auto|]. intros m _. apply (proj1 (H3 m)); auto. Qed.

Section Fold2.
  Context {K : Type} (f : K -> K -> K).
  Fixpoint fold2 (a : nd K) (args : list (nd K)) : res (nd K) :=
    match args with
    | [] => Ok a
    | b :: r => bind (nd_map2 f a b) (fun a => fold2 a r)
    end.
  Lemma fold2_ok args : forall a u, bcast_all (map shp (a :: args)) u ->
    exists r, fold2 a args = Ok r /\ shp r = u /\
      forall idx, inb idx u -> get r idx = fold_left f (map (fun b => bget b idx) args) (bget a idx).
  Proof.
    induction args as [|b args IH]; intros a u H.
    - apply bcast_all_one in H. exists a. cbn. split; [reflexivity|]. split; [exact H|]. subst u.
      intros idx Hi. rewrite bget_self; auto.
    - cbn [map] in H. apply bcast_all_cons in H as (v & Hv & H). cbn [fold2]. unfold nd_map2. rewrite Hv. cbn [bind].
      destruct (IH (Nd v (fun idx => f (bget a idx) (bget b idx))) u) as (r & E & Sr & G); [exact H|].
      exists r. split; [exact E|]. split; [exact Sr|]. intros idx Hi. rewrite G by auto. cbn [map fold_left].
      f_equal. unfold bget at 1. cbn [shp get].
      destruct (bshape_bto _ _ _ Hv) as [B1 B2].
      assert (L : length v <= length idx).
      { rewrite (inb_length _ _ Hi). apply (proj1 H). left; auto. }
      rewrite !bget_bget by auto. reflexivity.
  Qed.
  Lemma fold2_err args : forall a r, fold2 a args = Ok r -> bcast_all (map shp (a :: args)) (shp r).
  Proof.
    induction args as [|b args IH]; intros a r; cbn [fold2].
    - intros [= <-]. apply bcast_all_one. reflexivity.
    - unfold nd_map2. destruct (bshape (shp a) (shp b)) as [v|] eqn:E; [|discriminate]. cbn [bind].
      intros H. apply IH in H. cbn [map]. apply bcast_all_cons. exists v. split; auto.
  Qed.
End Fold2.
Lemma max_fold2 {K} {NK : Num K} a args : max_ a args = fold2 nmax a args.
Proof. revert a; induction args; intros; cbn; auto. Qed.
Lemma min_fold2 {K} {NK : Num K} a args : min_ a args = fold2 nmin a args.
Proof. revert a; induction args; intros; cbn; auto. Qed.

Local Open Scope R_scope.
Lemma fold_max_R l : forall x, (forall y, In y (x :: l) -> y <= fold_left nmax l x) /\ In (fold_left nmax l x) (x :: l).
Proof.
  induction l as [|b l IH]; intros x; cbn [fold_left].
  - split; [intros y [<-|[]]; lra|left; auto].
  - destruct (IH (nmax x b)) as [H1 H2]. rewrite nmax_R in *.
    split.
    + intros y [<-|[<-|Hy]].
      * eapply Rle_trans; [apply (Rmax_l x b)|]. apply H1. left; auto.
      * eapply Rle_trans; [apply (Rmax_r x b)|]. apply H1. left; auto.
      * apply H1. right; auto.
    + destruct H2 as [<-|H2]; [|right; right; auto].
      destruct (Rmax_case_strong x b (fun z => In z (x :: b :: l)));  cbn; auto.
Qed.
Lemma fold_min_R l : forall x, (forall y, In y (x :: l) -> fold_left nmin l x <= y) /\ In (fold_left nmin l x) (x :: l).
Proof.
  induction l as [|b l IH]; intros x; cbn [fold_left].
  - split; [intros y [<-|[]]; lra|left; auto].
  - destruct (IH (nmin x b)) as [H1 H2]. rewrite nmin_R in *.
    split.
    + intros y [<-|[<-|Hy]].
      * eapply Rle_trans; [|apply (Rmin_l x b)]. apply H1. left; auto.
      * eapply Rle_trans; [|apply (Rmin_r x b)]. apply H1. left; auto.
      * apply H1. right; auto.
    + destruct H2 as [<-|H2]; [|right; right; auto].
      destruct (Rmin_case_strong x b (fun z => In z (x :: b :: l)));  cbn; auto.
Qed.
(* r is the elementwise extremum of the arrays in l: a bound that is attained *)
Definition is_extremum (le : R -> R -> Prop) (l : list (nd R)) (r : nd R) : Prop :=
  bcast_all (map shp l) (shp r) /\
  forall idx, inb idx (shp r) ->
    (forall b, In b l -> le (bget b idx) (get r idx)) /\ exists b, In b l /\ bget b idx = get r idx.
Theorem C08_max_min (a : nd R) args :
  (forall u, bcast_all (map shp (a :: args)) u ->
     (exists r, max_ a args = Ok r /\ shp r = u /\ is_extremum Rle (a :: args) r) /\
     (exists r, min_ a args = Ok r /\ shp r = u /\ is_extremum Rge (a :: args) r)) /\
  ((~ exists u, bcast_all (map shp (a :: args)) u) -> max_ a args = Err ValueError /\ min_ a args = Err ValueError).
Proof.
  split.
  - intros u H. split.
    + rewrite max_fold2. destruct (fold2_ok nmax args a u H) as (r & E & Sr & G).
      exists r. split; [exact E|]. split; [exact Sr|]. split; [rewrite Sr; exact H|].
      intros idx Hi. rewrite Sr in Hi. rewrite G by auto.
      destruct (fold_max_R (map (fun b => bget b idx) args) (bget a idx)) as [A B].
      change (bget a idx :: map (fun b => bget b idx) args) with (map (fun b => bget b idx) (a :: args)) in *.
      split.
      * intros b Hb. apply A. apply (in_map (fun b => bget b idx)). exact Hb.
      * apply in_map_iff in B as (b & E' & Hb). exists b. auto.
    + rewrite min_fold2. destruct (fold2_ok nmin args a u H) as (r & E & Sr & G).
      exists r. split; [exact E|]. split; [exact Sr|]. split; [rewrite Sr; exact H|].
      intros idx Hi. rewrite Sr in Hi. rewrite G by auto.
      destruct (fold_min_R (map (fun b => bget b idx) args) (bget a idx)) as [A B].
      change (bget a idx :: map (fun b => bget b idx) args) with (map (fun b => bget b idx) (a :: args)) in *.
      split.
      * intros b Hb. apply Rle_ge. apply A. apply (in_map (fun b => bget b idx)). exact Hb.
      * apply in_map_iff in B as (b & E' & Hb). exists b. auto.
  - intros H. rewrite max_fold2, min_fold2.
    assert (V : forall f e, fold2 f a args = Err e -> e = ValueError).
    { clear H. intros f. revert a; induction args as [|b l IH]; intros a e; cbn [fold2]; [discriminate|].
      unfold nd_map2. destruct (bshape _ _); cbn [bind]; [apply IH|congruence]. }
    split.
    + destruct (fold2 nmax a args) eqn:E; [|f_equal; eapply V; eauto].
      exfalso. apply H. eexists. eapply fold2_err; eauto.
    + destruct (fold2 nmin a args) eqn:E; [|f_equal; eapply V; eauto].
      exfalso. apply H. eexists. eapply fold2_err; eauto.
Qed.
(* argument order does not matter *)
Theorem C08_order (a b : nd R) args bs : Permutation (a :: args) (b :: bs) ->
  (forall r, max_ a args = Ok r -> exists r', max_ b bs = Ok r' /\ nd_eq r r') /\
  (forall r, min_ a args = Ok r -> exists r', min_ b bs = Ok r' /\ nd_eq r r').
Proof.
  intros P. assert (PS := Permutation_map shp P). split; intros r E.
  - rewrite max_fold2 in E. apply fold2_err in E as H.
    destruct (proj1 (C08_max_min a args) _ H) as ((r0 & E0 & S0 & X0) & _). rewrite max_fold2, E in E0. inv E0.
    destruct (proj1 (C08_max_min b bs) _ (bcast_all_perm _ _ _ PS H)) as ((r' & E' & S' & X') & _).
    exists r'. split; [exact E'|]. split; [congruence|]. intros idx Hi.
    destruct X0 as [_ X0], X' as [_ X']. destruct (X0 idx Hi) as (A & x & Hx & Ex).
    destruct (X' idx) as (A' & y & Hy & Ey); [congruence|].
    apply Rle_antisym.
    + rewrite <- Ex. apply A'. eapply Permutation_in; eauto.
    + rewrite <- Ey. apply A. eapply Permutation_in; [apply Permutation_sym; eauto|auto].
  - rewrite min_fold2 in E. apply fold2_err in E as H.
    destruct (proj1 (C08_max_min a args) _ H) as (_ & (r0 & E0 & S0 & X0)). rewrite min_fold2, E in E0. inv E0.
    destruct (proj1 (C08_max_min b bs) _ (bcast_all_perm _ _ _ PS H)) as (_ & (r' & E' & S' & X')).
    exists r'. split; [exact E'|]. split; [congruence|]. intros idx Hi.
    destruct X0 as [_ X0], X' as [_ X']. destruct (X0 idx Hi) as (A & x & Hx & Ex).
    destruct (X' idx) as (A' & y & Hy & Ey); [congruence|].
    apply Rle_antisym.
    + rewrite <- Ey. apply Rge_le. apply A. eapply Permutation_in; [apply Permutation_sym; eauto|auto].
    + rewrite <- Ex. apply Rge_le. apply A'. eapply Permutation_in; eauto.
Qed.
(* a column against a row and a scalar *)
Example C08_case : bcast_all (map shp [full [2; 1]%nat 1; full [3]%nat 2; scalar 5]) [2; 3]%nat.
Proof.
  split; [|split].
  - intros s [<-|[<-|[<-|[]]]]; cbn; lia.
  - exists [2; 1]%nat; cbn; auto.
  - intros [|[|m]]; (split; [intros s [<-|[<-|[<-|[]]]]; unfold dimr; cbn; auto; destruct m; auto|]).
    + exists [3]%nat; cbn; auto.
    + exists [2; 1]%nat; cbn; auto.
    + exists [2; 1]%nat; unfold dimr; cbn; destruct m; auto.
Qed.

(* --- C09 ------------------------------------------------------------------- *)
Lemma fold_left_Rplus l x : fold_left Rplus l x = x + fold_right Rplus 0 l.
Proof. revert x; induction l; intros; cbn; [lra|]. rewrite IHl. lra. Qed.
Theorem C09_abs (a : arg R) :
  (abs_ a [] = Ok (nd_map Rabs (aarr a))) /\
  forall args n T, args <> [] -> numeric (a :: args) -> is_rank 0 (a :: args) n ->
    common n (fun _ => True) (a :: args) T ->
    exists r, abs_ a args = Ok r /\ shp r = T /\
      forall idx, inb idx T ->
        get r idx = sqrt (fold_right Rplus 0 (map (fun b => (bget (aarr b) idx)²) (a :: args))) /\
        0 <= get r idx /\
        get r idx * get r idx = fold_right Rplus 0 (map (fun b => (bget (aarr b) idx)²) (a :: args)).
Proof.
  split; [reflexivity|]. intros args n T Hne Hnum Hr Hc.
  destruct args as [|b0 args]; [congruence|]. cbn [abs_].
  set (l := a :: b0 :: args) in *.
  destruct (C06_stack l [] 0%Z n 0 T) as (st & E & Ss & G); auto.
  { left; auto. } { discriminate. } { split; [lia|left; reflexivity]. }
  rewrite E. cbn [bind]. rewrite (nd_map2_same _ st st (shp st)) by auto. cbn [bind].
  rewrite Ss. replace (insert_at 0 (length l) T) with (length l :: T) in * by (destruct T; reflexivity).
  eexists. split; [reflexivity|]. split; [reflexivity|].
  intros idx Hi. cbn [nd_map get nd_sum0 shp tl hd].
  assert (ES : fold_left Rplus (map (fun i : nat => bget st (i :: idx) * bget st (i :: idx)) (seq 0 (length l))) 0
             = fold_right Rplus 0 (map (fun b => (bget (aarr b) idx)²) l)).
  { rewrite fold_left_Rplus, Rplus_0_l. f_equal.
    apply nth_ext with (d:=0) (d':=0); [rewrite !map_length, seq_length; auto|].
    rewrite map_length, seq_length. intros j Hj.
    set (F := fun i : nat => bget st (i :: idx) * bget st (i :: idx)).
    rewrite (nth_indep _ 0 (F 0%nat)) by (rewrite map_length, seq_length; auto).
    rewrite (map_nth F), seq_nth by auto. cbn [Nat.add].
    set (H := fun b : arg R => (bget (aarr b) idx)²).
    rewrite (nth_indep _ 0 (H a)) by (rewrite map_length; auto). rewrite (map_nth H).
    unfold F, H, Rsqr. rewrite bget_self by (rewrite Ss; constructor; auto).
    specialize (G j a Hj idx Hi). replace (insert_at 0 j idx) with (j :: idx) in G by (destruct idx; reflexivity).
    rewrite G. reflexivity. }
  assert (P : 0 <= fold_right Rplus 0 (map (fun b => (bget (aarr b) idx)²) l)).
  { clearbody l. clear. induction l; cbn; [lra|]. pose proof (Rle_0_sqr (bget (aarr a) idx)). lra. }
  rewrite ES. split; [reflexivity|]. split; [apply sqrt_pos|]. apply sqrt_sqrt. exact P.
Qed.
Example C09_case :
  let a := Arg true (scalar 3) in let b := Arg true (full [2]%nat 4) in
  exists r, abs_ a [b] = Ok r /\ shp r = [2]%nat /\ get r [1]%nat = 5.
Proof.
  intros a b.
  destruct (C09_abs a) as [_ H]. destruct (H [b] 1%nat [2]%nat) as (r & E & Sr & G).
  - discriminate.
  - intros c [<-|[<-|[]]]; reflexivity.
  - split; [lia|]. split; [intros c [<-|[<-|[]]]; cbn; lia|]. right. exists b. cbn; auto.
  - split; [reflexivity|]. intros m Hm _. assert (m = 0)%nat by lia. subst m. split.
    + intros c [<-|[<-|[]]]; cbn; [right; split; auto; lia|auto].
    + exists b; cbn; auto.
  - exists r. split; [exact E|]. split; [exact Sr|]. destruct (G [1]%nat) as (_ & P & Q); [repeat constructor|].
    cbn in Q. unfold Rsqr in Q. nra.
Qed.

(* --- C10 ------------------------------------------------------------------- *)
Lemma polar_atan a b : b <> 0 -> 
  cos (Ratan.atan (a / b)) = Rabs b / sqrt (a * a + b * b) /\ sin (Ratan.atan (a / b)) = a / b * (Rabs b / sqrt (a * a + b * b)).
Proof.
  intros Hb. rewrite cos_atan, sin_atan.
  assert (E : sqrt (1 + (a / b)²) = sqrt (a * a + b * b) / Rabs b).
  { rewrite <- sqrt_Rsqr_abs, <- sqrt_div_alt by (apply Rsqr_pos_lt; auto).
    f_equal. unfold Rsqr. field. auto. }
  assert (0 < sqrt (a * a + b * b)) by (apply sqrt_lt_R0; nra).
  assert (Rabs b <> 0) by (apply Rabs_no_R0; auto).
  rewrite E. split; field; split; lra.
Qed.
Lemma arctan2_polar a b : let r := sqrt (a * a + b * b) in
  b = r * cos (arctan2 a b) /\ a = r * sin (arctan2 a b).
Proof.
  cbv zeta. unfold arctan2.
  destruct (Rltb_spec 0 b).
  - destruct (polar_atan a b) as [C S]; [lra|]. rewrite C, S, Rabs_right by lra.
    assert (0 < sqrt (a * a + b * b)) by (apply sqrt_lt_R0; nra). split; field; lra.
  - destruct (Rltb_spec b 0).
    + destruct (polar_atan a b) as [C S]; [lra|]. rewrite Rabs_left in C, S by lra.
      assert (0 < sqrt (a * a + b * b)) by (apply sqrt_lt_R0; nra).
      destruct (Rltb_spec a 0).
      * replace (Ratan.atan (a / b) - PI) with (- (PI - Ratan.atan (a / b))) by ring.
        rewrite cos_neg, sin_neg, Rtrigo_facts.cos_pi_minus, sin_PI_x, C, S. split; field; lra.
      * rewrite neg_cos, neg_sin, C, S. split; field; lra.
    + assert (b = 0) by lra. subst b. rewrite Rmult_0_l, Rplus_0_r.
      change (a * a) with (a²). rewrite sqrt_Rsqr_abs.
      destruct (Rltb_spec 0 a).
      * rewrite cos_PI2, sin_PI2, Rabs_right by lra. lra.
      * destruct (Rltb_spec a 0).
        -- rewrite cos_neg, sin_neg, cos_PI2, sin_PI2, Rabs_left by lra. lra.
        -- assert (a = 0) by lra. subst. rewrite Rabs_R0. lra.
Qed.
Lemma cos_period_Z x z : cos (x - 2 * PI * IZR z) = cos x /\ sin (x - 2 * PI * IZR z) = sin x.
Proof.
  destruct (Z_le_gt_dec 0 z) as [H|H].
  - rewrite <- (Z2Nat.id z), <- INR_IZR_INZ by auto. set (n := Z.to_nat z).
    rewrite <- (cos_period (x - 2 * PI * INR n) n), <- (sin_period (x - 2 * PI * INR n) n).
    replace (x - 2 * PI * INR n + 2 * INR n * PI) with x by ring. auto.
  - replace z with (- Z.of_nat (Z.to_nat (- z)))%Z by lia. set (n := Z.to_nat (- z)).
    rewrite opp_IZR, <- INR_IZR_INZ.
    replace (x - 2 * PI * - INR n) with (x + 2 * INR n * PI) by ring.
    rewrite cos_period, sin_period. auto.
Qed.
Theorem C10_atan_branch (a b br : R) out :
  let (t, o) := atan a (Some b) out (Some br) in
  br <= t < br + 2 * PI /\
  b = sqrt (a * a + b * b) * cos t /\ a = sqrt (a * a + b * b) * sin t /\
  (out = true -> o = Some t) /\ (out = false -> o = None).
Proof.
  unfold atan. destruct (arctan2_polar a b) as [C S]. set (u := arctan2 a b) in *.
  unfold nmod. numR. pose proof PI_RGT_0.
  pose proof (Int_part_bounds ((u - br) / (2 * PI))) as [B1 B2].
  set (z := Int_part ((u - br) / (2 * PI))) in *.
  assert (E : u - br = (u - br) / (2 * PI) * (2 * PI)) by (field; lra).
  assert (E' : u - br - 2 * PI * IZR z + br = u - 2 * PI * IZR z) by ring.
  rewrite E'. destruct (cos_period_Z u z) as [C' S']. rewrite C', S'.
  split; [|split; [exact C|split; [exact S|split; intros ->; reflexivity]]].
  split; nra.
Qed.
(* without branch: the principal value, in [-pi, pi] *)
Theorem C10_atan_plain (a b : R) out :
  let (t, o) := atan a (Some b) out None in
  - PI <= t <= PI /\ b = sqrt (a * a + b * b) * cos t /\ a = sqrt (a * a + b * b) * sin t /\
  (out = true -> o = Some t).
Proof.
  unfold atan. destruct (arctan2_polar a b) as [C S].
  split; [|split; [exact C|split; [exact S|intros ->; reflexivity]]].
  pose proof PI_RGT_0. unfold arctan2. pose proof (atan_bound (a / b)) as [B1 B2].
  assert (D : b < 0 -> (a < 0 -> 0 < Ratan.atan (a / b)) /\ (0 <= a -> Ratan.atan (a / b) <= 0)).
  { intros Hb. split; intros Ha.
    - rewrite <- atan_0. apply atan_increasing. unfold Rdiv.
      assert (/ b < 0) by (apply Rinv_lt_0_compat; auto). nra.
    - rewrite <- atan_0. assert (/ b < 0) by (apply Rinv_lt_0_compat; auto).
      assert (a / b <= 0) by (unfold Rdiv; nra).
      destruct (Req_dec (a / b) 0) as [->|]; [lra|]. left. apply atan_increasing. lra. }
  destruct (Rltb_spec 0 b); [lra|]. destruct (Rltb_spec b 0) as [Hb|].
  - destruct (D Hb) as [D1 D2]. destruct (Rltb_spec a 0) as [Ha|Ha].
    + specialize (D1 Ha). lra.
    + specialize (D2 ltac:(lra)). lra.
  - destruct (Rltb_spec 0 a); [lra|]. destruct (Rltb_spec a 0); lra.
Qed.

(* --- C11-C13: cum, zcen, pcen ------------------------------------------------ *)
(* value at position i along axis k *)
Definition at_k {A} (a : nd A) (k i : nat) (idx : list nat) : A := get a (upd k i idx).
Lemma upd_upd {A} k (v w : A) l : upd k v (upd k w l) = upd k v l.
Proof. revert k; induction l; destruct k; cbn; auto. f_equal; auto. Qed.
Lemma upd_nth_self k (l : list nat) : upd k (nth k l 0%nat) l = l.
Proof. revert k; induction l; destruct k; cbn; auto. f_equal; auto. Qed.
Lemma inb_upd_shape idx s k n i : inb idx s -> (i < n)%nat -> inb (upd k i idx) (upd k n s).
Proof.
  intros H; revert k; induction H; intros k Hi; cbn.
  - destruct k; constructor.
  - destruct k; constructor; auto. apply IHForall2; auto.
Qed.
Lemma inb_upd_back idx s k n : (k < length s)%nat -> inb idx (upd k n s) ->
  forall i, (i < nth k s 0)%nat -> inb (upd k i idx) s.
Proof.
  intros Hk H i Hi. replace s with (upd k (nth k s 0%nat) (upd k n s)).
  - apply inb_upd_shape; auto.
  - rewrite upd_upd. apply upd_nth_self.
Qed.
Lemma nd_cat2_ok {A} (a b : nd A) k s la lb :
  (k < length s)%nat -> shp a = upd k la s -> shp b = upd k lb s ->
  exists r, nd_cat2 k a b = Ok r /\ shp r = upd k (la + lb)%nat s /\
    forall idx, length idx = length s ->
      (forall i, (i < la)%nat -> at_k r k i idx = at_k a k i idx) /\
      (forall i, at_k r k (la + i) idx = at_k b k i idx).
Proof.
  intros Hk Ea Eb. unfold nd_cat2. rewrite Ea, Eb, !upd_length, Nat.eqb_refl.
  replace (k <? length s)%nat with true by (symmetry; apply Nat.ltb_lt; auto).
  replace (forallb _ _) with true.
  2:{ symmetry. apply forallb_forall. intros m _. apply orb_true_iff. rewrite !Nat.eqb_eq.
      destruct (Nat.eq_dec m k); [auto|right]. rewrite !nth_upd_neq by auto. reflexivity. }
  cbn [andb]. eexists. split; [reflexivity|]. cbn [shp get]. rewrite !nth_upd_eq by auto. rewrite upd_upd.
  split; [reflexivity|]. intros idx Hl. unfold at_k. cbn [get]. split.
  - intros i Hi. rewrite nth_upd_eq by lia. replace (i <? la)%nat with true by (symmetry; apply Nat.ltb_lt; auto). reflexivity.
  - intros i. rewrite nth_upd_eq by lia. replace (la + i <? la)%nat with false by (symmetry; apply Nat.ltb_ge; lia).
    rewrite upd_upd. do 3 f_equal. lia.
Qed.
Lemma nd_diff_ok (a : nd R) k n : (k < length (shp a))%nat -> nth k (shp a) 0%nat = n ->
  exists r, nd_diff k a = Ok r /\ shp r = upd k (n - 1)%nat (shp a) /\
    forall idx, inb idx (shp a) -> forall i, (S i < n)%nat ->
      at_k r k i idx = at_k a k (S i) idx - at_k a k i idx.
Proof.
  intros Hk En. unfold nd_diff. rewrite En.
  rewrite (nd_map2_same _ _ _ (upd k (n - 1)%nat (shp a))) by reflexivity.
  eexists. split; [reflexivity|]. split; [reflexivity|]. intros idx Hi i Hin.
  unfold at_k. cbn [get]. assert (Hl := inb_length _ _ Hi).
  rewrite !bget_self by (cbn [nd_slice shp]; apply inb_upd_shape; auto; lia).
  cbn [nd_slice get]. rewrite nth_upd_eq, !upd_upd by lia. reflexivity.
Qed.

Lemma cums_diff_R (f : nat -> R) i : cums f (S i) - cums f i = f (S i).
Proof. cbn [cums]. numR. lra. Qed.
Lemma cum_ok (a : nd R) z k n : axis_is (length (shp a)) z k -> nth k (shp a) 0%nat = n ->
  exists c, cum a (Some z) = Ok c /\ shp c = upd k (S n) (shp a) /\
    forall idx, length idx = length (shp a) ->
      at_k c k 0 idx = 0 /\
      forall i, at_k c k (S i) idx = cums (fun j => at_k a k j idx) i.
Proof.
  intros Hax En. pose proof (axis_is_index _ _ _ Hax) as Hk'. destruct Hax as [Hk _].
  unfold cum. destruct (shp a) as [|d s] eqn:Es; [cbn in Hk; lia|]. rewrite <- Es in *.
  rewrite Hk'. cbn [of_opt bind].
  destruct (nd_cat2_ok (full (upd k 1%nat (shp a)) n0) (nd_cumsum k a) k (shp a) 1 n) as (c & E & Sc & G); auto.
  { cbn [nd_cumsum shp]. rewrite <- En. symmetry. apply upd_nth_self. }
  exists c. split; [exact E|]. split; [exact Sc|]. intros idx Hl. destruct (G idx Hl) as [G1 G2]. split.
  - rewrite G1 by lia. reflexivity.
  - intros i. change (S i) with (1 + i)%nat. rewrite G2. unfold at_k. cbn [nd_cumsum get].
    rewrite nth_upd_eq by lia. apply cums_ext. intros j _. rewrite upd_upd. reflexivity.
Qed.
Theorem C11_cum (a : nd R) z k n : axis_is (length (shp a)) z k -> nth k (shp a) 0%nat = n ->
  (* one longer, starts with 0, diff undoes it *)
  (exists c, cum a (Some z) = Ok c /\ shp c = upd k (S n) (shp a) /\
    (forall idx, inb idx (shp c) -> nth k idx 0%nat = 0%nat -> get c idx = 0) /\
    exists d, nd_diff k c = Ok d /\ nd_eq d a) /\
  (* cum undoes diff up to the first slice *)
  ((1 <= n)%nat -> exists d c, nd_diff k a = Ok d /\ cum d (Some z) = Ok c /\ shp c = shp a /\
    forall idx, inb idx (shp a) -> get c idx = get a idx - get a (upd k 0%nat idx)).
Proof.
  intros Hax En. pose proof Hax as [Hk _]. split.
  - destruct (cum_ok a z k n Hax En) as (c & E & Sc & G). exists c. split; [exact E|]. split; [exact Sc|]. split.
    + intros idx Hi H0. rewrite Sc in Hi. assert (Hl := inb_length _ _ Hi). rewrite upd_length in Hl.
      destruct (G idx Hl) as [G0 _]. unfold at_k in G0. rewrite <- H0, upd_nth_self in G0. exact G0.
    + destruct (nd_diff_ok c k (S n)) as (d & Ed & Sd & Gd).
      { rewrite Sc, upd_length. auto. } { rewrite Sc, nth_upd_eq; auto. }
      exists d. split; [exact Ed|].
      assert (Sda : shp d = shp a).
      { rewrite Sd, Sc, upd_upd. replace (S n - 1)%nat with n by lia. rewrite <- En. apply upd_nth_self. }
      split; [exact Sda|]. intros idx Hi. rewrite Sda in Hi. assert (Hl := inb_length _ _ Hi).
      destruct (G idx Hl) as [G0 G1]. pose proof (inb_nth _ _ k Hi Hk) as Hin. rewrite En in Hin.
      specialize (Gd (upd k 0%nat idx)). 
      rewrite <- (upd_nth_self k idx) at 1 2. set (i := nth k idx 0%nat) in *.
      assert (Hc : inb (upd k 0%nat idx) (shp c)) by (rewrite Sc; apply inb_upd_shape; auto; lia).
      specialize (Gd Hc i ltac:(lia)). unfold at_k in Gd, G0, G1. rewrite !upd_upd in Gd. rewrite Gd, G1.
      destruct i as [|i].
      * rewrite G0. cbn [cums]. lra.
      * rewrite G1. apply cums_diff_R.
  - intros Hn. destruct (nd_diff_ok a k n Hk En) as (d & Ed & Sd & Gd).
    assert (Hax' : axis_is (length (shp d)) z k) by (rewrite Sd, upd_length; auto).
    destruct (cum_ok d z k (n - 1) Hax') as (c & E & Sc & G); [rewrite Sd, nth_upd_eq; auto|].
    exists d, c. split; [exact Ed|]. split; [exact E|].
    assert (Sca : shp c = shp a).
    { rewrite Sc, Sd, upd_upd. replace (S (n - 1)) with n by lia. rewrite <- En. apply upd_nth_self. }
    split; [exact Sca|]. intros idx Hi. assert (Hl := inb_length _ _ Hi).
    destruct (G idx) as [G0 G1]; [rewrite Sd, upd_length; auto|].
    pose proof (inb_nth _ _ k Hi Hk) as Hin. rewrite En in Hin.
    rewrite <- (upd_nth_self k idx) at 1 2. unfold at_k in *. set (i := nth k idx 0%nat) in *. clearbody i.
    clear Hl. induction i as [|i IH].
    + rewrite G0. lra.
    + rewrite G1. destruct i as [|i].
      * cbn [cums]. rewrite (Gd idx Hi) by lia. lra.
      * cbn [cums]. numR. rewrite <- G1, IH by lia. rewrite (Gd idx Hi) by lia. lra.
Qed.
(* axis=None works on the flattened array; a scalar is a TypeError *)
Theorem C11_cum_none (a : nd R) :
  (shp a = [] -> forall z, cum a z = Err TypeError) /\
  (shp a <> [] -> exists c, cum a None = Ok c /\ shp c = [S (size (shp a))] /\ get c [0%nat] = 0 /\
    forall i, (i < size (shp a))%nat -> get c [S i] - get c [i] = get a (unravel (shp a) i)).
Proof.
  split.
  - intros H z. unfold cum. rewrite H. reflexivity.
  - intros H. unfold cum. destruct (shp a) as [|d s] eqn:Es; [congruence|]. rewrite <- Es in *.
    unfold reshape. cbn [size fold_right]. rewrite Nat.mul_1_r. fold (size (shp a)). rewrite Nat.eqb_refl. cbn [bind].
    set (f := Nd _ _).
    destruct (nd_cat2_ok (full [1%nat] n0) (nd_cumsum 0 f) 0 [size (shp a)] 1 (size (shp a))) as (c & E & Sc & G); auto.
    exists c. split; [exact E|]. split; [exact Sc|].
    destruct (G [0%nat] eq_refl) as [G0 G1]. unfold at_k in G0, G1. cbn [upd] in G0, G1.
    assert (V : forall i, get c [S i] = cums (fun j => get a (unravel (shp a) j)) i).
    { intros i. change (S i) with (1 + i)%nat. rewrite G1. cbn [nd_cumsum get nth upd].
      apply cums_ext. intros j _. cbn [f get ravel size fold_right]. do 2 f_equal. lia. }
    split; [apply (G0 0%nat); lia|]. intros [|i] Hi.
    + rewrite V. rewrite (G0 0%nat) by lia. cbn [cums full get]. numR. lra.
    + rewrite !V. apply cums_diff_R.
Qed.

Theorem C12_zcen (a : nd R) z k n : axis_is (length (shp a)) z k -> nth k (shp a) 0%nat = n ->
  ((2 <= n)%nat -> exists r, zcen a z = Ok r /\ shp r = upd k (n - 1)%nat (shp a) /\
     forall idx, inb idx (shp a) -> forall i, (S i < n)%nat ->
       at_k r k i idx = (at_k a k i idx + at_k a k (S i) idx) / 2) /\
  ((n < 2)%nat -> zcen a z = Err TypeError).
Proof.
  intros Hax En. pose proof (axis_is_index _ _ _ Hax) as Hk'. destruct Hax as [Hk _].
  unfold zcen. destruct (shp a) as [|d s] eqn:Es; [cbn in Hk; lia|]. rewrite <- Es in *.
  rewrite Hk'. cbn [of_opt bind]. rewrite En. split; intros Hn.
  - replace (n <? 2)%nat with false by (symmetry; apply Nat.ltb_ge; auto).
    rewrite (nd_map2_same _ _ _ (upd k (n - 1)%nat (shp a))) by reflexivity.
    eexists. split; [reflexivity|]. split; [reflexivity|]. intros idx Hi i Hin.
    unfold at_k. cbn [get]. assert (Hl := inb_length _ _ Hi).
    rewrite !bget_self by (cbn [nd_slice shp]; apply inb_upd_shape; auto; lia).
    cbn [nd_slice get]. rewrite nth_upd_eq, !upd_upd by lia. numR. cbn [Nat.add]. field.
  - replace (n <? 2)%nat with true by (symmetry; apply Nat.ltb_lt; auto). reflexivity.
Qed.
Theorem C12_zcen_scalar (a : nd R) z : shp a = [] -> zcen a z = Err TypeError /\ pcen a z = Err TypeError.
Proof. intros H. unfold zcen, pcen. rewrite H. split; reflexivity. Qed.

Theorem C13_pcen (a : nd R) z k n : axis_is (length (shp a)) z k -> nth k (shp a) 0%nat = n -> (1 <= n)%nat ->
  exists r, pcen a z = Ok r /\ shp r = upd k (S n) (shp a) /\
    forall idx, inb idx (shp a) ->
      at_k r k 0 idx = at_k a k 0 idx /\
      at_k r k n idx = at_k a k (n - 1) idx /\
      forall i, (S i < n)%nat -> at_k r k (S i) idx = (at_k a k i idx + at_k a k (S i) idx) / 2.
Proof.
  intros Hax En Hn. pose proof (axis_is_index _ _ _ Hax) as Hk'. destruct Hax as [Hk _].
  unfold pcen. destruct (shp a) as [|d s] eqn:Es; [cbn in Hk; lia|]. rewrite <- Es in *.
  rewrite Hk'. cbn [of_opt bind]. rewrite En.
  replace (Nat.min 1 n) with 1%nat by lia.
  assert (F : forall lo idx, length idx = length (shp a) -> at_k (nd_slice k lo 1 a) k 0 idx = at_k a k lo idx).
  { intros lo idx Hl. unfold at_k. cbn [nd_slice get]. rewrite nth_upd_eq, upd_upd, Nat.add_0_r by lia. reflexivity. }
  destruct (Nat.ltb_spec n 2) as [H2|H2].
  - assert (n = 1)%nat by lia. clear H2. 
    destruct (nd_cat2_ok (nd_slice k 0 1 a) (nd_slice k (n - 1) 1 a) k (shp a) 1 1) as (r & E & Sr & G); auto.
    exists r. split; [exact E|]. split; [rewrite Sr; f_equal; lia|]. intros idx Hi. assert (Hl := inb_length _ _ Hi).
    destruct (G idx Hl) as [G1 G2]. split; [|split; [|intros; lia]].
    + rewrite G1 by lia. apply F; auto.
    + replace n with (1 + 0)%nat at 1 by lia. rewrite G2. apply F; auto.
  - rewrite (nd_map2_same _ _ _ (upd k (n - 1)%nat (shp a))) by reflexivity. cbn [bind].
    match goal with |- context [nd_cat2 k _ ?m] => set (mid := m) end.
    assert (M : forall idx, inb idx (shp a) -> forall i, (S i < n)%nat ->
       at_k mid k i idx = (at_k a k i idx + at_k a k (S i) idx) / 2).
    { intros idx Hi i Hin. unfold at_k. cbn [mid get]. assert (Hl := inb_length _ _ Hi).
      rewrite !bget_self by (cbn [nd_slice shp]; apply inb_upd_shape; auto; lia).
      cbn [nd_slice get]. rewrite nth_upd_eq, !upd_upd by lia. numR. cbn [Nat.add]. field. }
    destruct (nd_cat2_ok (nd_slice k 0 1 a) mid k (shp a) 1 (n - 1)) as (r1 & E1 & S1 & G1); auto.
    rewrite E1. cbn [bind].
    destruct (nd_cat2_ok r1 (nd_slice k (n - 1) 1 a) k (shp a) (1 + (n - 1)) 1) as (r & E & Sr & G); auto.
    exists r. split; [exact E|]. split; [rewrite Sr; f_equal; lia|]. intros idx Hi. assert (Hl := inb_length _ _ Hi).
    destruct (G idx Hl) as [GA GB]. destruct (G1 idx Hl) as [GC GD]. split; [|split].
    + rewrite GA by lia. rewrite GC by lia. apply F; auto.
    + replace n with (1 + (n - 1) + 0)%nat at 1 by lia. rewrite GB. apply F; auto.
    + intros i Hin. rewrite GA by lia. change (S i) with (1 + i)%nat at 1. rewrite GD. apply M; auto.
Qed.
(* zcen after pcen: the 1-2-1 average inside *)
Theorem C13_zcen_pcen (a : nd R) z k n : axis_is (length (shp a)) z k -> nth k (shp a) 0%nat = n -> (1 <= n)%nat ->
  exists p r, pcen a z = Ok p /\ zcen p z = Ok r /\ shp r = shp a /\
    forall idx, inb idx (shp a) -> forall i, (0 < i)%nat -> (S i < n)%nat ->
      at_k r k i idx = (at_k a k (i - 1) idx + 2 * at_k a k i idx + at_k a k (S i) idx) / 4.
Proof.
  intros Hax En Hn. destruct (C13_pcen a z k n Hax En Hn) as (p & E & Sp & G).
  pose proof Hax as [Hk _].
  assert (Hax' : axis_is (length (shp p)) z k) by (rewrite Sp, upd_length; auto).
  destruct (C12_zcen p z k (S n) Hax') as [Z _]; [rewrite Sp, nth_upd_eq; auto|].
  destruct Z as (r & Er & Sr & Gr); [lia|].
  exists p, r. split; [exact E|]. split; [exact Er|]. split.
  { rewrite Sr, Sp, upd_upd. replace (S n - 1)%nat with n by lia. rewrite <- En. apply upd_nth_self. }
  intros idx Hi i H1 H2.
  specialize (Gr (upd k 0%nat idx)). assert (Hp : inb (upd k 0%nat idx) (shp p)) by (rewrite Sp; apply inb_upd_shape; auto; lia).
  specialize (Gr Hp i ltac:(lia)). unfold at_k in *. rewrite !upd_upd in Gr. rewrite Gr.
  destruct (G idx Hi) as (_ & _ & GI). rewrite (GI i) by auto.
  destruct i as [|i]; [lia|]. rewrite (GI i) by lia. replace (S i - 1)%nat with i by lia. field.
Qed.
(* the one axis length for which pcen is not one longer: an empty axis *)
Theorem C13_pcen_empty_refuted : exists a r : nd R, shp a = [0%nat] /\ pcen a (-1)%Z = Ok r /\ shp r = [0%nat].
Proof. exists (full [0%nat] 0). eexists. split; [reflexivity|]. split; reflexivity. Qed.
Example C11_case :   (* the docstring arrays are 2 x 4; both axes are legal *)
  let x := Nd [2; 4]%nat (fun idx => INR (1 + nth 0 idx 0%nat)) in
  axis_is (length (shp x)) (-1) 1 /\ nth 1 (shp x) 0%nat = 4%nat /\ axis_is (length (shp x)) 0 0 /\
  exists c, cum x (Some (-1)%Z) = Ok c /\ get c [1; 4]%nat = 8.
Proof.
  split; [split; [cbn; lia|right; reflexivity]|]. split; [reflexivity|].
  split; [split; [cbn; lia|left; reflexivity]|].
  destruct (cum_ok (Nd [2; 4]%nat (fun idx => INR (1 + nth 0 idx 0%nat))) (-1)%Z 1 4) as (c & E & _ & G);
    [split; [cbn; lia|right; reflexivity]|reflexivity|].
  exists c. split; [exact E|]. destruct (G [1; 0]%nat eq_refl) as [_ G1]. specialize (G1 3%nat).
  unfold at_k in G1. cbn [upd get nth] in G1. rewrite G1, cums_const. cbn. lra.
Qed.

Print Assumptions C08_max_min.
Print Assumptions C10_atan_branch.
Print Assumptions C11_cum.
