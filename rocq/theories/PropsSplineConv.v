(* The order of convergence of cubic splines and of pline (npplus/pwpoly.py:817-1064): the distance from a smooth function. *)
From Coq Require Import List Arith ZArith Lia Bool Reals Lra.
From Verif Require Import Num PyBase NdArray Poly SpecPoly PolyProofs PwPoly PwBase PwDeriv PwInteg PwCtor PropsCtor RSum
  SolvePer SolveProofs Gauss PropsSolve Spline SplineProofs SplineCore SplineSolve SplineFacts SplfitProofs SplfitSolve SplfitRow PropsSpline PropsSplineUniq.
Import ListNotations.
Local Open Scope R_scope.

(** ** functions of one variable *)
(* a function with two zeros *)
Lemma rolle (w w1 : R -> R) u v : u < v -> (forall t, u <= t <= v -> derivable_pt_lim w t (w1 t)) -> w u = w v -> exists z, u < z < v /\ w1 z = 0.
Proof.
  intros Huv D E. destruct (MVT_cor2 w w1 u v Huv D) as (z & H & Hz). exists z. split; [exact Hz|].
  rewrite E, Rminus_diag_eq in H by reflexivity. symmetry in H. apply Rmult_integral in H. destruct H; [auto|lra].
Qed.
Lemma dpl_quad a b c p t : derivable_pt_lim (fun t => a + b * (t - p) + c * (t - p) * (t - p)) t (b + 2 * c * (t - p)).
Proof.
  pose proof (dpl_tay 0 [a; b; c] p t) as H. replace (b + 2 * c * (t - p)) with (INR (fact 1) * tay 1 [a; b; c] (t - p)) by (cbn; ring).
  revert H. apply dpl_ext. intros s. cbn. ring.
Qed.
Lemma dpl_lin b c p t : derivable_pt_lim (fun t => b + 2 * c * (t - p)) t (2 * c).
Proof.
  pose proof (dpl_tay 0 [b; 2 * c] p t) as H. replace (2 * c) with (INR (fact 1) * tay 1 [b; 2 * c] (t - p)) by (cbn; ring).
  revert H. apply dpl_ext. intros s. cbn. ring.
Qed.
Section TwoZeros.
  Variables (g g1 g2 : R -> R) (u v B : R).
  Hypothesis Huv : u < v.
  Hypothesis D1 : forall t, u <= t <= v -> derivable_pt_lim g t (g1 t).
  Hypothesis D2 : forall t, u <= t <= v -> derivable_pt_lim g1 t (g2 t).
  Hypothesis HB : forall t, u <= t <= v -> Rabs (g2 t) <= B.
  Hypothesis Zu : g u = 0.
  Hypothesis Zv : g v = 0.
  Lemma zeros_between t : u <= t <= v -> Rabs (g t) <= B / 2 * ((t - u) * (v - t)).
  Proof using All.
    intros Ht. destruct (Req_dec t u) as [->|Nu]; [rewrite Zu, Rabs_R0; lra|]. destruct (Req_dec t v) as [->|Nv]; [rewrite Zv, Rabs_R0; lra|].
    set (P := (t - u) * (v - t)). assert (HP : 0 < P) by (unfold P; nra). set (K := g t / P).
    set (w := fun s => g s - (0 + K * (v - u) * (s - u) + - K * (s - u) * (s - u))).
    set (w1 := fun s => g1 s - (K * (v - u) + 2 * - K * (s - u))).
    assert (W1 : forall s, u <= s <= v -> derivable_pt_lim w s (w1 s)) by (intros s Hs; apply derivable_pt_lim_minus; [auto|apply dpl_quad]).
    assert (W2 : forall s, u <= s <= v -> derivable_pt_lim w1 s (g2 s - 2 * - K)) by (intros s Hs; apply derivable_pt_lim_minus; [auto|apply dpl_lin]).
    assert (Wu : w u = 0) by (unfold w; rewrite Zu; ring). assert (Wv : w v = 0) by (unfold w; rewrite Zv; ring).
    assert (Wt : w t = 0) by (unfold w; replace (0 + K * (v - u) * (t - u) + - K * (t - u) * (t - u)) with (K * P) by (unfold P; ring); unfold K; field; lra).
    destruct (rolle w w1 u t ltac:(lra)) as (z1 & H1 & E1); [intros; apply W1; lra|congruence|].
    destruct (rolle w w1 t v ltac:(lra)) as (z2 & H2 & E2); [intros; apply W1; lra|congruence|].
    destruct (rolle w1 (fun s => g2 s - 2 * - K) z1 z2 ltac:(lra)) as (z & Hz & E); [intros; apply W2; lra|congruence|].
    assert (EK : K = - (g2 z) / 2) by lra. replace (g t) with (K * P) by (unfold K; field; lra). rewrite Rabs_mult, (Rabs_right P) by lra.
    apply Rmult_le_compat_r; [lra|]. rewrite EK. unfold Rdiv. rewrite Rabs_mult, Rabs_Ropp, (Rabs_right (/ 2)) by lra. pose proof (HB z ltac:(lra)). lra.
  Qed.
  Lemma zeros_slope : Rabs (g1 u) <= (v - u) / 2 * B /\ Rabs (g1 v) <= (v - u) / 2 * B.
  Proof using All.
    assert (G : forall p q, (p = u /\ q = v \/ p = v /\ q = u) -> Rabs (g1 p) <= (v - u) / 2 * B).
    { intros p q Hpq. set (K := - (g1 p) / (q - p)).
      set (w := fun s => g s - (0 + g1 p * (s - p) + K * (s - p) * (s - p))). set (w1 := fun s => g1 s - (g1 p + 2 * K * (s - p))).
      assert (W1 : forall s, u <= s <= v -> derivable_pt_lim w s (w1 s)) by (intros s Hs; apply derivable_pt_lim_minus; [auto|apply dpl_quad]).
      assert (W2 : forall s, u <= s <= v -> derivable_pt_lim w1 s (g2 s - 2 * K)) by (intros s Hs; apply derivable_pt_lim_minus; [auto|apply dpl_lin]).
      assert (Zp : g p = 0) by (destruct Hpq as [[-> _]|[-> _]]; auto). assert (Zq : g q = 0) by (destruct Hpq as [[_ ->]|[_ ->]]; auto).
      assert (Npq : q - p <> 0) by (destruct Hpq as [[-> ->]|[-> ->]]; lra).
      assert (Wp : w p = 0) by (unfold w; rewrite Zp; ring). assert (Wq : w q = 0) by (unfold w; rewrite Zq; unfold K; field; exact Npq).
      assert (W1p : w1 p = 0) by (unfold w1; ring).
      assert (Ex : exists z, u <= z <= v /\ g2 z = 2 * K).
      { destruct Hpq as [[Ep Eq]|[Ep Eq]]; subst p q.
        - destruct (rolle w w1 u v Huv W1) as (z1 & H1 & E1); [congruence|].
          destruct (rolle w1 (fun s => g2 s - 2 * K) u z1 ltac:(lra)) as (z & Hz & E); [intros; apply W2; lra|congruence|]. exists z. split; lra.
        - destruct (rolle w w1 u v Huv W1) as (z1 & H1 & E1); [congruence|].
          destruct (rolle w1 (fun s => g2 s - 2 * K) z1 v ltac:(lra)) as (z & Hz & E); [intros; apply W2; lra|congruence|]. exists z. split; lra. }
      destruct Ex as (z & Hz & E). pose proof (HB z Hz) as Bz. rewrite E in Bz.
      replace (g1 p) with (- (K * (q - p))) by (unfold K; field; exact Npq). rewrite Rabs_Ropp, Rabs_mult.
      assert (A : Rabs (q - p) = v - u) by (destruct Hpq as [[-> ->]|[-> ->]]; [apply Rabs_right; lra|rewrite Rabs_left; lra]). rewrite A.
      rewrite Rabs_mult, (Rabs_right 2) in Bz by lra. nra. }
    split; [apply (G u v); auto|apply (G v u); auto].
  Qed.
  Lemma zeros_h t : u <= t <= v -> Rabs (g t) <= (v - u) * (v - u) / 8 * B.
  Proof using All.
    intros Ht. pose proof (zeros_between t Ht) as Z. pose proof (HB t Ht). pose proof (Rabs_pos (g2 t)). assert (0 <= B) by lra.
    assert ((t - u) * (v - t) <= (v - u) * (v - u) / 4) by (pose proof (Rle_0_sqr (t - u - (v - t))) as S; unfold Rsqr in S; lra).
    eapply Rle_trans; [exact Z|]. replace ((v - u) * (v - u) / 8 * B) with (B / 2 * ((v - u) * (v - u) / 4)) by field. apply Rmult_le_compat_l; lra.
  Qed.
End TwoZeros.

(** ** one interval: a function with four derivatives minus a cubic *)
Section Piece.
  Variables (f : nat -> R -> R) (u v M : R).
  Hypothesis Huv : u < v.
  Hypothesis HD : forall k t, (k < 4)%nat -> u <= t <= v -> derivable_pt_lim (f k) t (f (S k) t).
  Hypothesis HM : forall t, u <= t <= v -> Rabs (f 4%nat t) <= M.
  Hypothesis Zu : f 0%nat u = 0.
  Hypothesis Zv : f 0%nat v = 0.
  Let h := v - u.
  Let eu := f 2%nat u.
  Let ev := f 2%nat v.
  Let lin t := eu + (ev - eu) / h * (t - u) + 0 * (t - u) * (t - u).
  Let lin1 t := (ev - eu) / h + 2 * 0 * (t - u).
  Lemma piece_h : 0 < h. Proof using Huv. unfold h. lra. Qed.
  Lemma lin_err t : u <= t <= v -> Rabs (f 2%nat t - lin t) <= h * h / 8 * M.
  Proof using All.
    intros Ht. pose proof piece_h. apply (zeros_h (fun t => f 2%nat t - lin t) (fun t => f 3%nat t - lin1 t) (fun t => f 4%nat t - 2 * 0) u v M); auto.
    - intros s Hs. apply derivable_pt_lim_minus; [apply HD; [lia|auto]|apply dpl_quad].
    - intros s Hs. apply derivable_pt_lim_minus; [apply HD; [lia|auto]|apply dpl_lin].
    - intros s Hs. rewrite Rmult_0_r, Rminus_0_r. auto.
    - unfold lin, eu. ring.
    - unfold lin, ev, eu. fold h. field. lra.
  Qed.
  Let ka t := tay 0 [0; - h * (2 * eu + ev) / 6; eu / 2; (ev - eu) / h / 6] (t - u).
  Lemma slopes : Rabs (f 1%nat u + h * (2 * eu + ev) / 6) <= h * h * h / 16 * M /\ Rabs (f 1%nat v - h * (eu + 2 * ev) / 6) <= h * h * h / 16 * M.
  Proof using All.
    pose proof piece_h as Hh. set (c := [0; - h * (2 * eu + ev) / 6; eu / 2; (ev - eu) / h / 6]).
    destruct (zeros_slope (fun t => f 0%nat t - dD 0 c (t - u)) (fun t => f 1%nat t - dD 1 c (t - u)) (fun t => f 2%nat t - dD 2 c (t - u)) u v (h * h / 8 * M)) as [S1 S2]; auto.
    - intros s Hs. apply derivable_pt_lim_minus; [apply HD; [lia|auto]|apply dpl_tay].
    - intros s Hs. apply derivable_pt_lim_minus; [apply HD; [lia|auto]|apply dpl_tay].
    - intros s Hs. replace (dD 2 c (s - u)) with (lin s); [apply lin_err; auto|]. unfold dD, lin, c. cbn. field. lra.
    - rewrite Zu. unfold dD, c. cbn. field. lra.
    - rewrite Zv. fold h. unfold dD, c. cbn. field. lra.
    - fold h in S1, S2. split.
      + replace (h * h * h / 16 * M) with (h / 2 * (h * h / 8 * M)) by field. eapply Rle_trans; [|exact S1]. apply Req_le. f_equal. unfold dD, c. replace (u - u) with 0 by ring. cbn. field. lra.
      + replace (h * h * h / 16 * M) with (h / 2 * (h * h / 8 * M)) by field. eapply Rle_trans; [|exact S2]. apply Req_le. f_equal. unfold dD, c. cbn. field. lra.
  Qed.
  Lemma piece_close E : Rabs eu <= E -> Rabs ev <= E -> forall t, u <= t <= v ->
    Rabs (f 2%nat t) <= E + h * h / 8 * M /\ Rabs (f 1%nat t) <= h * (E + h * h / 8 * M) /\ Rabs (f 0%nat t) <= h * h / 8 * (E + h * h / 8 * M).
  Proof using All.
    intros Eu Ev. pose proof piece_h as Hh.
    assert (A2 : forall t, u <= t <= v -> Rabs (f 2%nat t) <= E + h * h / 8 * M).
    { intros t Ht. pose proof (lin_err t Ht) as L. replace (f 2%nat t) with (lin t + (f 2%nat t - lin t)) by ring. eapply Rle_trans; [apply Rabs_triang|]. apply Rplus_le_compat; [|exact L].
      set (z := (t - u) / h). assert (Z : 0 <= z <= 1). { unfold z. split; [apply Rmult_le_pos; [lra|left; apply Rinv_0_lt_compat; auto]|]. apply (Rmult_le_reg_r h); [auto|]. unfold h in *. field_simplify; lra. }
      replace (lin t) with ((1 - z) * eu + z * ev) by (unfold lin, z; field; lra).
      eapply Rle_trans; [apply Rabs_triang|]. rewrite !Rabs_mult, (Rabs_right z), (Rabs_right (1 - z)) by lra. nra. }
    intros t Ht. split; [auto|]. split.
    - destruct (rolle (f 0%nat) (f 1%nat) u v Huv) as (z & Hz & E1); [intros; apply HD; [lia|auto]|congruence|].
      assert (E0 : 0 <= E + h * h / 8 * M) by (pose proof (A2 t Ht); pose proof (Rabs_pos (f 2%nat t)); lra).
      assert (G : forall p q, p < q -> u <= p -> q <= v -> Rabs (f 1%nat q - f 1%nat p) <= h * (E + h * h / 8 * M)).
      { intros p q Hpq H1 H2. destruct (MVT_cor2 (f 1%nat) (f 2%nat) p q Hpq) as (s & Es & Hs); [intros; apply HD; [lia|lra]|].
        rewrite Es, Rabs_mult, (Rabs_right (q - p)) by lra. pose proof (A2 s ltac:(lra)). pose proof (Rabs_pos (f 2%nat s)). rewrite Rmult_comm. apply Rmult_le_compat; try lra. unfold h; lra. }
      destruct (Rtotal_order t z) as [L|[->|L]].
      + specialize (G t z L ltac:(lra) ltac:(lra)). rewrite E1 in G. rewrite Rminus_0_l, Rabs_Ropp in G. exact G.
      + rewrite E1, Rabs_R0. apply Rmult_le_pos; lra.
      + specialize (G z t L ltac:(lra) ltac:(lra)). rewrite E1, Rminus_0_r in G. exact G.
    - apply (zeros_h (f 0%nat) (f 1%nat) (f 2%nat) u v (E + h * h / 8 * M)); auto; intros s Hs; apply HD; auto; lia.
  Qed.
End Piece.

(** ** the equations for the second derivatives are diagonally dominant *)
Lemma rabs_between a b : Rabs a <= b -> - b <= a <= b.
Proof. unfold Rabs. destruct (Rcase_abs a); lra. Qed.
Lemma max_index (e : nat -> R) n : exists i, (i <= n)%nat /\ forall j, (j <= n)%nat -> Rabs (e j) <= Rabs (e i).
Proof.
  induction n as [|n (i & Hi & H)]; [exists 0%nat; split; auto; intros j Hj; replace j with 0%nat by lia; lra|].
  destruct (Rle_dec (Rabs (e (S n))) (Rabs (e i))) as [L|L].
  - exists i. split; [lia|]. intros j Hj. destruct (Nat.eq_dec j (S n)) as [->|]; [exact L|apply H; lia].
  - exists (S n). split; [lia|]. intros j Hj. destruct (Nat.eq_dec j (S n)) as [->|]; [lra|]. specialize (H j ltac:(lia)). lra.
Qed.
Section Dominant.
  Variables (e d h : nat -> R) (ns : nat) (C H : R).
  Hypothesis Hns : (1 <= ns)%nat.
  Hypothesis HC : 0 <= C.
  Hypothesis Hh : forall q, (q < ns)%nat -> 0 < h q <= H.
  Hypothesis EL : forall q, (q < ns)%nat -> Rabs (d q + h q * (2 * e q + e (S q)) / 6) <= C * (h q * h q * h q).
  Hypothesis ER : forall q, (q < ns)%nat -> Rabs (d (S q) - h q * (e q + 2 * e (S q)) / 6) <= C * (h q * h q * h q).
  Lemma cube q : (q < ns)%nat -> C * (h q * h q * h q) <= C * (H * H) * h q.
  Proof using HC Hh.
    intros Hq. destruct (Hh q Hq). replace (C * (H * H) * h q) with (C * (H * H * h q)) by ring. apply Rmult_le_compat_l; [auto|]. apply Rmult_le_compat_r; [lra|]. nra.
  Qed.
  Lemma mid i p q : (p < ns)%nat -> (q < ns)%nat -> e (S p) = e i -> e q = e i -> d (S p) = d q -> (forall j, (j <= ns)%nat -> Rabs (e j) <= Rabs (e i)) -> Rabs (e i) <= 6 * C * (H * H).
  Proof using All.
    intros Hp Hq E1 E2 E3 Hm. pose proof (ER p Hp) as R1. pose proof (EL q Hq) as R2. pose proof (cube p Hp) as C1. pose proof (cube q Hq) as C2. rewrite E1 in R1. rewrite E2 in R2. rewrite E3 in R1.
    destruct (Hh p Hp) as [A1 _]. destruct (Hh q Hq) as [A2 _]. pose proof (Hm p ltac:(lia)) as M1. pose proof (Hm (S q) ltac:(lia)) as M2.
    set (E := Rabs (e i)) in *. set (A := h p) in *. set (B := h q) in *. set (ep := e p) in *. set (en := e (S q)) in *. set (ei := e i) in *. set (K := C * (H * H)) in *.
    assert (N1 : - (A * E) <= A * ep <= A * E) by (apply rabs_between in M1; split; nra).
    assert (N2 : - (B * E) <= B * en <= B * E) by (apply rabs_between in M2; split; nra).
    apply rabs_between in R1, R2. assert (Q : (A + B) * E <= 6 * K * (A + B)).
    { assert (S : ei = E \/ ei = - E) by (unfold E; destruct (Rcase_abs ei); [rewrite Rabs_left by lra|rewrite Rabs_right by lra]; lra).
      clearbody E. destruct S as [-> | ->]; lra. }
    apply (Rmult_le_reg_l (A + B)); [lra|]. replace ((A + B) * (6 * C * (H * H))) with (6 * K * (A + B)) by (unfold K; ring). exact Q.
  Qed.
  Lemma left_end : d 0%nat = 0 \/ e 0%nat = 0 -> (forall j, (j <= ns)%nat -> Rabs (e j) <= Rabs (e 0%nat)) -> Rabs (e 0%nat) <= 6 * C * (H * H).
  Proof using All.
    intros [E0|E0] Hm.
    - pose proof (EL 0%nat ltac:(lia)) as R2. pose proof (cube 0%nat ltac:(lia)) as C2. rewrite E0 in R2. destruct (Hh 0%nat ltac:(lia)) as [A2 _]. pose proof (Hm 1%nat ltac:(lia)) as M2.
      set (E := Rabs (e 0%nat)) in *. set (B := h 0%nat) in *. set (en := e 1%nat) in *. set (ei := e 0%nat) in *. set (K := C * (H * H)) in *.
      assert (N2 : - (B * E) <= B * en <= B * E) by (apply rabs_between in M2; split; nra).
      apply rabs_between in R2. assert (Q : B * E <= 6 * K * B).
      { assert (S : ei = E \/ ei = - E) by (unfold E; destruct (Rcase_abs ei); [rewrite Rabs_left by lra|rewrite Rabs_right by lra]; lra).
        clearbody E. destruct S as [-> | ->]; lra. }
      apply (Rmult_le_reg_l B); [lra|]. replace (B * (6 * C * (H * H))) with (6 * K * B) by (unfold K; ring). exact Q.
    - rewrite E0, Rabs_R0. apply Rmult_le_pos; [lra|apply Rle_0_sqr].
  Qed.
  Lemma right_end : d ns = 0 \/ e ns = 0 -> (forall j, (j <= ns)%nat -> Rabs (e j) <= Rabs (e ns)) -> Rabs (e ns) <= 6 * C * (H * H).
  Proof using All.
    intros [E0|E0] Hm.
    - assert (exists p, ns = S p) as [p Ep] by (exists (ns - 1)%nat; lia).
      pose proof (ER p ltac:(lia)) as R2. pose proof (cube p ltac:(lia)) as C2. rewrite <- Ep, E0 in R2. destruct (Hh p ltac:(lia)) as [A2 _]. pose proof (Hm p ltac:(lia)) as M2.
      set (E := Rabs (e ns)) in *. set (B := h p) in *. set (en := e p) in *. set (ei := e ns) in *. set (K := C * (H * H)) in *.
      assert (N2 : - (B * E) <= B * en <= B * E) by (apply rabs_between in M2; split; nra).
      apply rabs_between in R2. assert (Q : B * E <= 6 * K * B).
      { assert (S : ei = E \/ ei = - E) by (unfold E; destruct (Rcase_abs ei); [rewrite Rabs_left by lra|rewrite Rabs_right by lra]; lra).
        clearbody E. destruct S as [-> | ->]; lra. }
      apply (Rmult_le_reg_l B); [lra|]. replace (B * (6 * C * (H * H))) with (6 * K * B) by (unfold K; ring). exact Q.
    - rewrite E0, Rabs_R0. apply Rmult_le_pos; [lra|apply Rle_0_sqr].
  Qed.
  Lemma dominant : (d 0%nat = 0 \/ e 0%nat = 0) /\ (d ns = 0 \/ e ns = 0) \/ (d ns = d 0%nat /\ e ns = e 0%nat) -> forall j, (j <= ns)%nat -> Rabs (e j) <= 6 * C * (H * H).
  Proof using All.
    intros Ends j Hj. destruct (max_index e ns) as (i & Hi & Hm). apply (Rle_trans _ _ _ (Hm j Hj)).
    destruct Ends as [[E0 En]|[En1 En2]].
    - destruct (Nat.eq_dec i 0) as [->|N0]; [apply left_end; auto|]. destruct (Nat.eq_dec i ns) as [->|Nn]; [apply right_end; auto|].
      assert (exists p, i = S p) as [p ->] by (exists (i - 1)%nat; lia). apply (mid (S p) p (S p)); auto; lia.
    - assert (exists p, ns = S p) as [p Ep] by (exists (ns - 1)%nat; lia).
      destruct (Nat.eq_dec i 0) as [->|N0]; [apply (mid 0 p 0); auto; try lia; rewrite <- Ep; auto|].
      destruct (Nat.eq_dec i ns) as [->|Nn]; [apply (mid ns p 0); auto; try lia; rewrite <- Ep; auto|].
      assert (exists p, i = S p) as [p' ->] by (exists (i - 1)%nat; lia). apply (mid (S p') p' (S p')); auto; lia.
  Qed.
End Dominant.

(** ** the whole spline *)
(* D lists a function and its first h derivatives on [u, v]; the last one is at most M *)
Definition smooth (h : nat) (D : nat -> R -> R) (u v M : R) : Prop :=
  (forall k t, (k < h)%nat -> u <= t <= v -> derivable_pt_lim (D k) t (D (S k) t)) /\ (forall t, u <= t <= v -> Rabs (D h t) <= M).
Definition spacing (x : list R) (H : R) : Prop := forall q, (S q < length x)%nat -> nth (S q) x 0 - nth q x 0 <= H.
(* F and its first two derivatives are those of D up to the fourth, third and second power of the spacing *)
Definition close4 (D : nat -> R -> R) (M H u v : R) (F : R -> R) : Prop :=
  (forall t, u < t <= v -> Rabs (F t - D 0%nat t) <= M * H ^ 4 / 16) /\
  exists g, (forall t, u < t < v -> g 0%nat t = F t /\ derivs_at 2 g t) /\
    forall t, u < t < v -> Rabs (g 1%nat t - D 1%nat t) <= M * H ^ 3 / 2 /\ Rabs (g 2%nat t - D 2%nat t) <= M * H ^ 2 / 2.

Section Whole.
  Variables (x : list R) (per : bool) (Y : nat -> R) (Q : nat -> list R) (D : nat -> R -> R) (M H : R).
  Hypothesis Hx : (2 <= length x)%nat.
  Hypothesis Hi : incr x.
  Hypothesis HP : pieces 3 x per Y Q.
  Hypothesis HS : smooth 4 D (nth 0 x 0) (nth (length x - 1) x 0) M.
  Hypothesis HH : spacing x H.
  Hypothesis HY : forall i, (i < length x)%nat -> Y i = D 0%nat (nth i x 0).
  Let X i := nth i x 0.
  Let ns := (length x - 1)%nat.
  Let f q k t := D k t - dD k (Q q) (t - X q).
  Let e i := if (i <? ns)%nat then f i 2%nat (X i) else f (ns - 1)%nat 2%nat (X ns).
  Let d i := if (i <? ns)%nat then f i 1%nat (X i) else f (ns - 1)%nat 1%nat (X ns).
  Lemma conv_in q t : (q < ns)%nat -> X q <= t <= X (S q) -> X 0%nat <= t <= X ns.
  Proof using Hi Hx.
    intros Hq Ht. pose proof (incr_le x 0 q Hi ltac:(unfold ns in *; lia)). pose proof (incr_le x (S q) ns Hi ltac:(unfold ns in *; lia)). unfold X in *. lra.
  Qed.
  Lemma X_step q : (q < ns)%nat -> X q < X (S q) <= X q + H.
  Proof using Hi HH Hx. intros Hq. pose proof (Hi q ltac:(unfold ns in *; lia)). pose proof (HH q ltac:(unfold ns in *; lia)). unfold X. lra. Qed.
  Lemma f_deriv q k t : (q < ns)%nat -> (k < 4)%nat -> X q <= t <= X (S q) -> derivable_pt_lim (f q k) t (f q (S k) t).
  Proof using Hi Hx HS. intros Hq Hk Ht. apply derivable_pt_lim_minus; [apply HS; [auto|apply (conv_in q); auto]|apply dpl_tay]. Qed.
  Lemma f4 q t : (q < ns)%nat -> X q <= t <= X (S q) -> Rabs (f q 4%nat t) <= M.
  Proof using Hi Hx HS HP.
    intros Hq Ht. unfold f, dD. rewrite tay_big by (rewrite (proj1 (proj1 HP q Hq)); lia). rewrite Rmult_0_r, Rminus_0_r. apply HS, (conv_in q); auto.
  Qed.
  Lemma f_left q : (q < ns)%nat -> f q 0%nat (X q) = 0.
  Proof using HY HP Hx. intros Hq. destruct (proj1 HP q Hq) as (_ & V & _). unfold f, dD, X. rewrite (Rminus_diag_eq (nth q x 0) (nth q x 0) eq_refl), tay_at_0, V, <- HY by (unfold ns in *; lia). cbn. ring. Qed.
  Lemma f_right q : (q < ns)%nat -> f q 0%nat (X (S q)) = 0.
  Proof using HY HP Hx. intros Hq. destruct (proj1 HP q Hq) as (_ & _ & V). rewrite Nat.add_1_r in V. unfold dxs in V. revert V. numR. intros V. unfold f, dD, X. rewrite V, <- HY by (unfold ns in *; lia). cbn. ring. Qed.
  Lemma f_match q k : (S q < ns)%nat -> (1 <= k < 3)%nat -> f q k (X (S q)) = f (S q) k (X (S q)).
  Proof using HP Hx.
    intros Hq Hk. destruct HP as [_ P2]. specialize (P2 q k ltac:(unfold ns in *; lia) Hk ltac:(right; unfold ns in *; lia)). rewrite Nat.mod_small, Nat.add_1_r in P2 by (unfold ns in *; lia).
    unfold dxs in P2. revert P2. numR. intros P2. unfold f, dD. rewrite (Rminus_diag_eq (X (S q)) (X (S q)) eq_refl), tay_at_0. unfold X. rewrite P2. reflexivity.
  Qed.
  Lemma ed q : (q < ns)%nat -> e q = f q 2%nat (X q) /\ e (S q) = f q 2%nat (X (S q)) /\ d q = f q 1%nat (X q) /\ d (S q) = f q 1%nat (X (S q)).
  Proof using HP Hx.
    intros Hq. unfold e, d. rewrite (proj2 (Nat.ltb_lt _ _) Hq). destruct (Nat.ltb_spec (S q) ns) as [L|G].
    - rewrite !f_match by (auto; lia). auto.
    - replace (ns - 1)%nat with q by lia. replace ns with (S q) by lia. auto.
  Qed.
  Definition ends_ok : Prop := (d 0%nat = 0 \/ e 0%nat = 0) /\ (d ns = 0 \/ e ns = 0) \/ (d ns = d 0%nat /\ e ns = e 0%nat).
  Lemma whole_close : ends_ok -> forall q t, (q < ns)%nat -> X q <= t <= X (S q) ->
    Rabs (f q 2%nat t) <= M * H ^ 2 / 2 /\ Rabs (f q 1%nat t) <= M * H ^ 3 / 2 /\ Rabs (f q 0%nat t) <= M * H ^ 4 / 16.
  Proof using All.
    intros Ends. assert (Hns : (1 <= ns)%nat) by (unfold ns; lia).
    assert (M0 : 0 <= M) by (eapply Rle_trans; [apply Rabs_pos|apply (proj2 HS (X 0%nat)); apply (conv_in 0); [lia|]; pose proof (X_step 0 ltac:(lia)); lra]).
    pose proof (dominant e d (fun q => X (S q) - X q) ns (M / 16) H Hns ltac:(lra)) as B.
    assert (BE : forall j, (j <= ns)%nat -> Rabs (e j) <= 6 * (M / 16) * (H * H)).
    { apply B; auto.
      - intros q Hq. pose proof (X_step q Hq). lra.
      - intros q Hq. pose proof (X_step q Hq) as St. destruct (ed q Hq) as (-> & -> & -> & _).
        destruct (slopes (f q) (X q) (X (S q)) M) as [S1 _]; [lra|intros; apply f_deriv; auto|intros; apply f4; auto|apply f_left; auto|apply f_right; auto|]. lra.
      - intros q Hq. pose proof (X_step q Hq) as St. destruct (ed q Hq) as (-> & -> & _ & ->).
        destruct (slopes (f q) (X q) (X (S q)) M) as [_ S1]; [lra|intros; apply f_deriv; auto|intros; apply f4; auto|apply f_left; auto|apply f_right; auto|]. lra. }
    clear B. intros q t Hq Ht. pose proof (X_step q Hq) as St. destruct (ed q Hq) as (E1 & E2 & _). pose proof (BE q ltac:(lia)) as B1. pose proof (BE (S q) ltac:(lia)) as B2. rewrite E1 in B1. rewrite E2 in B2.
    destruct (piece_close (f q) (X q) (X (S q)) M) with (E := 6 * (M / 16) * (H * H)) (t := t) as (A2 & A1 & A0); auto;
      [lra|intros; apply f_deriv; auto|intros; apply f4; auto|apply f_left; auto|apply f_right; auto|].
    set (h := X (S q) - X q) in *. assert (Hh : 0 < h <= H) by (unfold h; lra). assert (h2 : h * h <= H * H) by nra.
    assert (T : 6 * (M / 16) * (H * H) + h * h / 8 * M <= M * H ^ 2 / 2) by (replace (M * H ^ 2 / 2) with (6 * (M / 16) * (H * H) + (H * H) / 8 * M) by field; apply Rplus_le_compat_l, Rmult_le_compat_r; lra).
    set (W := 6 * (M / 16) * (H * H) + h * h / 8 * M) in *. assert (W0 : 0 <= W) by (pose proof (Rabs_pos (f q 2%nat t)); lra). split; [lra|]. split.
    - eapply Rle_trans; [exact A1|]. replace (M * H ^ 3 / 2) with (H * (M * H ^ 2 / 2)) by field. apply Rmult_le_compat; lra.
    - eapply Rle_trans; [exact A0|]. replace (M * H ^ 4 / 16) with (H * H / 8 * (M * H ^ 2 / 2)) by field. apply Rmult_le_compat; try lra. assert (0 <= h * h) by nra. lra.
  Qed.
  (* from the pieces to the function and its derivatives *)
  Lemma whole_function F g : ends_ok -> on_pieces 3 x F Q -> (forall t, X 0%nat < t < X ns -> g 0%nat t = F t /\ derivs_at 2 g t) ->
    close4 D M H (X 0%nat) (X ns) F.
  Proof using All.
    intros Ends OP HG. pose proof (whole_close Ends) as W. split.
    - intros t Ht. destruct (cover x t Ht) as (q & Hq & Hqt). rewrite (proj2 (OP q Hq) t Hqt). rewrite Rabs_minus_sym.
      destruct (W q t ltac:(unfold ns; lia) ltac:(unfold X; lra)) as (_ & _ & W0). revert W0. unfold f, dD. rewrite tay_0. replace (INR (fact 0)) with 1 by (cbn; ring). rewrite Rmult_1_l. auto.
    - exists g. split; [exact HG|]. intros t Ht. destruct (cover x t ltac:(unfold X, ns in Ht; lra)) as (q & Hq & Hqt).
      pose proof (conv_in q) as CI.
      assert (G : forall k, (k <= 2)%nat -> g k t = dD k (Q q) (t - X q)).
      { intros k Hk. assert (PD : forall k s, (k <= 2)%nat -> X q < s < X (S q) -> g k s = dD k (Q q) (s - X q)).
        { intros k' s Hk' Hs. apply (piece_derivs g (Q q) 2 (X q) (X (S q))); auto.
          - intros s' Hs'. rewrite (proj1 (HG s' ltac:(destruct (CI (X q) ltac:(unfold ns; lia) ltac:(lra)); destruct (CI (X (S q)) ltac:(unfold ns; lia) ltac:(lra)); lra))). apply (proj2 (OP q Hq)). unfold X in *. lra.
          - intros m s' Hm Hs'. apply (HG s'); [|exact Hm]. destruct (CI (X q) ltac:(unfold ns; lia) ltac:(lra)). destruct (CI (X (S q)) ltac:(unfold ns; lia) ltac:(lra)). lra. }
        destruct (Rle_lt_or_eq_dec t (X (S q)) ltac:(unfold X; lra)) as [L|Et]; [apply PD; [auto|unfold X in *; lra]|].
        apply (cont_left (g k) (fun s => dD k (Q q) (s - X q)) (X q) t); [unfold X; lra|apply (HG t Ht); auto|apply cont_tay|]. intros s Hs. apply PD; [auto|lra]. }
      rewrite !G by lia. rewrite (Rabs_minus_sym (dD 1 _ _)), (Rabs_minus_sym (dD 2 _ _)).
      destruct (W q t ltac:(unfold ns; lia) ltac:(unfold X; lra)) as (W2 & W1 & _). split; assumption.
  Qed.
End Whole.
Lemma ends_cond x Q D : (2 <= length x)%nat ->
  (nth 1 (Q 0%nat) 0 = D 1%nat (nth 0 x 0) \/ nth 2 (Q 0%nat) 0 = D 2%nat (nth 0 x 0) / 2) ->
  (tay 1 (Q (length x - 2)%nat) (nth (length x - 1) x 0 - nth (length x - 2) x 0) = D 1%nat (nth (length x - 1) x 0) \/
   tay 2 (Q (length x - 2)%nat) (nth (length x - 1) x 0 - nth (length x - 2) x 0) = D 2%nat (nth (length x - 1) x 0) / 2) -> ends_ok x Q D.
Proof.
  intros Hx L R. left. rewrite Nat.ltb_irrefl, (proj2 (Nat.ltb_lt 0 (length x - 1)%nat) ltac:(lia)). replace (length x - 1 - 1)%nat with (length x - 2)%nat by lia.
  rewrite (Rminus_diag_eq (nth 0 x 0) (nth 0 x 0) eq_refl). unfold dD. rewrite !tay_at_0. change (INR (fact 1)) with 1. replace (INR (fact 2)) with 2 by (cbn; ring).
  split; [destruct L as [->| ->]; [left|right]; lra|]. destruct R as [->| ->]; [left|right]; lra.
Qed.
Lemma ends_per x Y Q D : (2 <= length x)%nat -> pieces 3 x true Y Q -> (forall k, (1 <= k <= 2)%nat -> D k (nth (length x - 1) x 0) = D k (nth 0 x 0)) -> ends_ok x Q D.
Proof.
  intros Hx [_ P] HD. right. rewrite Nat.ltb_irrefl, (proj2 (Nat.ltb_lt 0 (length x - 1)%nat) ltac:(lia)). replace (length x - 1 - 1)%nat with (length x - 2)%nat by lia.
  rewrite (Rminus_diag_eq (nth 0 x 0) (nth 0 x 0) eq_refl). unfold dD. rewrite !tay_at_0, !HD by lia.
  assert (E : forall m, (1 <= m < 3)%nat -> tay m (Q (length x - 2)%nat) (nth (length x - 1) x 0 - nth (length x - 2) x 0) = nth m (Q 0%nat) 0).
  { intros m Hm. specialize (P (length x - 2)%nat m ltac:(lia) Hm ltac:(left; reflexivity)).
    replace ((length x - 2 + 1) mod (length x - 1))%nat with 0%nat in P by (replace (length x - 2 + 1)%nat with (length x - 1)%nat by lia; symmetry; apply Nat.mod_same; lia).
    unfold dxs in P. revert P. numR. replace (S (length x - 2)) with (length x - 1)%nat by lia. auto. }
  rewrite !E by lia. split; reflexivity.
Qed.

Section Conv.
  Variable inv : nat -> (nat -> nat -> R) -> (nat -> nat -> R).
  Variable sb : nat -> nat -> arr2 R -> arr2 R -> res (arr2 R).
  Variable s : arr2 R -> arr2 R -> res (arr2 R).
  Hypothesis Hsb : banded_spec sb.
  Hypothesis Hs : dense_spec s.
  Hypothesis Hinv : inv_spec inv.

  (* at each end the slope or the second derivative (in the form of a Taylor coefficient) is that of the function *)
  Definition end_of (l : list (option (nd R))) (j : nat) (s1 s2 : R) : Prop :=
    (exists b, nth 0 l None = Some b /\ bget b [j] = s1) \/ (exists b, nth 1 l None = Some b /\ bget b [j] = s2 / 2).
  Lemma cubic_close : forall x y lo hi extrap p comp D M H, incr x -> spline inv sb s x y 3 lo hi false extrap = Ok p -> inb comp (ysh y) ->
    smooth 4 D (nth 0 x 0) (nth (length x - 1) x 0) M -> spacing x H -> (forall i, (i < length x)%nat -> yval y comp i = D 0%nat (nth i x 0)) ->
    (forall lo' hi', filled 3 (bc_tuple lo) (bc_tuple hi) lo' hi' ->
       end_of lo' (ravel (ysh y) comp) (D 1%nat (nth 0 x 0)) (D 2%nat (nth 0 x 0)) /\
       end_of hi' (ravel (ysh y) comp) (D 1%nat (nth (length x - 1) x 0)) (D 2%nat (nth (length x - 1) x 0))) ->
    exists F, (forall t, pw_call p comp t = Ok (F t)) /\ close4 D M H (nth 0 x 0) (nth (length x - 1) x 0) F.
  Proof using Hsb.
    intros x y lo hi extrap p comp D M H Hi E Hb HS HH HY HE.
    assert (X2 : (2 <= length x)%nat) by (pose proof (spline_ok_args _ _ _ _ _ _ _ _ _ _ (le_S _ _ (le_n 2)) Hi E) as (G1 & _); exact G1).
    destruct (C109_unique inv sb s Hsb 3 x y lo hi extrap p comp ltac:(lia) Hi E Hb) as (lo' & hi' & F & HF & HC & HA & _).
    destruct (HE lo' hi' HF) as [EL EH]. exists F. split; [exact HC|].
    destruct (a_spline_pieces 3 x (yval y comp) lo' hi' _ F ltac:(lia) Hi HA) as (Q & OQ & PQ & BL & BH). destruct HA as (_ & g & _ & _ & HG & _).
    apply (whole_function x false (yval y comp) Q D M H X2 Hi PQ HS HH HY F g); [|exact OQ|exact HG].
    apply ends_cond; [exact X2| |].
    - destruct EL as [(b & E1 & E2)|(b & E1 & E2)]; [left|right]; rewrite (BL _ b E1); exact E2.
    - destruct EH as [(b & E1 & E2)|(b & E1 & E2)]; [left|right]; rewrite (BH _ b E1); exact E2.
  Qed.
  (* the slopes of the function given at both ends *)
  Theorem C110_complete : forall x y lo hi bl bh extrap p comp D M H, incr x -> spline inv sb s x y 3 lo hi false extrap = Ok p -> inb comp (ysh y) ->
    smooth 4 D (nth 0 x 0) (nth (length x - 1) x 0) M -> spacing x H -> (forall i, (i < length x)%nat -> yval y comp i = D 0%nat (nth i x 0)) ->
    nth 0 (bc_tuple lo) None = Some bl -> bget bl [ravel (ysh y) comp] = D 1%nat (nth 0 x 0) ->
    nth 0 (bc_tuple hi) None = Some bh -> bget bh [ravel (ysh y) comp] = D 1%nat (nth (length x - 1) x 0) ->
    exists F, (forall t, pw_call p comp t = Ok (F t)) /\ close4 D M H (nth 0 x 0) (nth (length x - 1) x 0) F.
  Proof using Hsb.
    intros x y lo hi bl bh extrap p comp D M H Hi E Hb HS HH HY L1 L2 R1 R2. apply (cubic_close x y lo hi extrap p comp D M H Hi E Hb HS HH HY).
    assert (G : forall lo' hi', filled 3 (bc_tuple lo) (bc_tuple hi) lo' hi' -> forall sl, getslot (bc_tuple lo) (bc_tuple hi) sl <> None -> getslot lo' hi' sl = getslot (bc_tuple lo) (bc_tuple hi) sl).
    { intros lo' hi' HF sl N. destruct (HF sl) as [_ H2]. apply H2. intros I. apply (firstn_in_app _ _ []) in I. rewrite app_nil_r in I. apply filter_In in I. destruct I as [_ I].
      destruct (getslot (bc_tuple lo) (bc_tuple hi) sl); [discriminate|congruence]. }
    intros lo' hi' HF. split; left.
    - exists bl. split; [|exact L2]. pose proof (G lo' hi' HF (0%nat, false)) as G1. unfold getslot in G1. cbn [fst snd] in G1. rewrite G1; rewrite L1; congruence.
    - exists bh. split; [|exact R2]. pose proof (G lo' hi' HF (0%nat, true)) as G1. unfold getslot in G1. cbn [fst snd] in G1. rewrite G1; rewrite R1; congruence.
  Qed.
  (* no end conditions, for a function without curvature at the ends *)
  Theorem C110_natural : forall x y extrap p comp D M H, incr x -> spline inv sb s x y 3 (BcTuple []) (BcTuple []) false extrap = Ok p -> inb comp (ysh y) ->
    smooth 4 D (nth 0 x 0) (nth (length x - 1) x 0) M -> spacing x H -> (forall i, (i < length x)%nat -> yval y comp i = D 0%nat (nth i x 0)) ->
    D 2%nat (nth 0 x 0) = 0 -> D 2%nat (nth (length x - 1) x 0) = 0 ->
    exists F, (forall t, pw_call p comp t = Ok (F t)) /\ close4 D M H (nth 0 x 0) (nth (length x - 1) x 0) F.
  Proof using Hsb.
    intros x y extrap p comp D M H Hi E Hb HS HH HY L R. apply (cubic_close x y (BcTuple []) (BcTuple []) extrap p comp D M H Hi E Hb HS HH HY).
    cbn [bc_tuple]. intros lo' hi' HF. rewrite L, R.
    assert (Z : forall c, getslot lo' hi' (1%nat, c) = zero_bc) by (intros c; destruct (HF (1%nat, c)) as [H1 _]; apply H1; destruct c; cbn; auto).
    split; right; exists (scalar 0); (split; [|cbn; lra]); [apply (Z false)|apply (Z true)].
  Qed.
  (* the periodic spline *)
  Theorem C110_periodic : forall x y p comp D M H, incr x -> (2 <= length x)%nat -> yn y = length x -> size (ysh y) <> 0%nat ->
    spline inv sb s x y 3 (BcTuple []) (BcTuple []) true ExNone = Ok p -> inb comp (ysh y) ->
    smooth 4 D (nth 0 x 0) (nth (length x - 1) x 0) M -> spacing x H -> (forall i, (i < length x)%nat -> yval y comp i = D 0%nat (nth i x 0)) ->
    (forall k, (k <= 2)%nat -> D k (nth (length x - 1) x 0) = D k (nth 0 x 0)) ->
    exists F, (forall t, pw_call p comp t = Ok (F t)) /\ close4 D M H (nth 0 x 0) (nth (length x - 1) x 0) F /\
      forall t, F (t + (nth (length x - 1) x 0 - nth 0 x 0)) = F t.
  Proof using Hsb Hs.
    intros x y p comp D M H Hi X2 Hy Hsz E Hb HS HH HY HP.
    destruct (C109_periodic inv sb s Hsb Hs 2 x y p comp ltac:(lia) Hi X2 Hy Hsz E Hb) as (F & HC & HA & _). cbn [Nat.mul Nat.add Nat.sub] in HA.
    exists F. split; [exact HC|]. destruct (a_per_pieces 3 x (yval y comp) F ltac:(lia) Hi X2 HA) as (Q & OQ & PQ). destruct HA as (_ & g & _ & _ & (G0 & G1 & G2) & PF). split; [|exact PF].
    apply (whole_function x true (y_per x (yval y comp)) Q D M H X2 Hi PQ HS HH) with (g := g).
    - intros i Hx. unfold y_per. destruct (Nat.eqb_spec i (length x - 1)) as [->|N]; [rewrite HP by lia|]; apply HY; lia.
    - apply (ends_per x (y_per x (yval y comp))); auto. intros k Hk. apply HP. lia.
    - exact OQ.
    - intros t Ht. split; [apply G0|]. split; auto.
  Qed.
  (* linear interpolation: second order *)
  Theorem C110_pline : forall x y extrap e f comp D M H, incr x -> (2 <= length x)%nat -> yn y = length x -> size (ysh y) <> 0%nat -> ex_pair 1 extrap = (e, f) -> inb comp (ysh y) ->
    smooth 2 D (nth 0 x 0) (nth (length x - 1) x 0) M -> spacing x H -> (forall i, (i < length x)%nat -> yval y comp i = D 0%nat (nth i x 0)) ->
    exists p, pline inv sb s x y extrap false = Ok p /\
      forall t, nth 0 x 0 < t <= nth (length x - 1) x 0 -> exists v, pw_call p comp t = Ok v /\ Rabs (v - D 0%nat t) <= M * H ^ 2 / 8.
  Proof using Hinv.
    intros x y extrap e f comp D M H Hi X2 Hy Hsz He Hb HS HH HY.
    destruct (C57_pline inv sb s Hinv x y extrap e f Hi X2 Hy Hsz He) as (p & E & HC). exists p. split; [exact E|]. intros t Ht.
    destruct (cover x t Ht) as (q & Hq & Hqt). destruct (HC comp Hb) as (HC1 & _). exists (seg x (yval y comp) q t). split; [apply HC1; [exact Hq|lra|right; lra]|].
    pose proof (incr_le x 0 q Hi ltac:(lia)) as I1. pose proof (incr_le x (S q) (length x - 1) Hi ltac:(lia)) as I2. pose proof (HH q Hq) as I3.
    set (u := nth q x 0) in *. set (v := nth (S q) x 0) in *. assert (Huv : u < v) by lra. set (Y0 := D 0%nat u). set (Y1 := D 0%nat v).
    assert (M0 : 0 <= M) by (eapply Rle_trans; [apply Rabs_pos|apply (proj2 HS u); lra]).
    replace (seg x (yval y comp) q t) with (Y0 + (Y1 - Y0) / (v - u) * (t - u) + 0 * (t - u) * (t - u)) by (unfold seg; rewrite !HY by lia; fold u v Y0 Y1; field; lra).
    rewrite Rabs_minus_sym.
    eapply Rle_trans; [apply (zeros_h (fun t => D 0%nat t - (Y0 + (Y1 - Y0) / (v - u) * (t - u) + 0 * (t - u) * (t - u))) (fun t => D 1%nat t - ((Y1 - Y0) / (v - u) + 2 * 0 * (t - u)))
      (fun t => D 2%nat t - 2 * 0) u v M Huv)|].
    - intros z Hz. apply derivable_pt_lim_minus; [apply HS; [lia|lra]|apply dpl_quad].
    - intros z Hz. apply derivable_pt_lim_minus; [apply HS; [lia|lra]|apply dpl_lin].
    - intros z Hz. rewrite Rmult_0_r, Rminus_0_r. apply HS. lra.
    - unfold Y0. ring.
    - unfold Y1. field. lra.
    - lra.
    - replace (M * H ^ 2 / 8) with (H * H / 8 * M) by field. apply Rmult_le_compat_r; [exact M0|]. assert ((v - u) * (v - u) <= H * H) by nra. lra.
  Qed.
End Conv.
Print Assumptions C110_complete.
Print Assumptions C110_natural.
Print Assumptions C110_periodic.
Print Assumptions C110_pline.

(* t^4 at -1, 0, 2, 3 with its slopes -4 and 108 *)
Definition y4q : yarr R := YArr [] 4 (fun _ i => nth i [1; 0; 16; 81] 0).
Definition quart (k : nat) (t : R) : R := dD k [0; 0; 0; 0; 1] (t - 0).
Lemma quart_smooth : smooth 4 quart (-1) 3 24.
Proof. split; [intros k t _ _; apply dpl_tay|]. intros t _. replace (quart 4 t) with 24 by (unfold quart, dD; cbn; ring). rewrite Rabs_right; lra. Qed.
Lemma x4_spacing : spacing x4 2.
Proof. intros [|[|[|[|q]]]] Hq; cbn in *; try lia; lra. Qed.
Example C110_complete_case : exists p F, gspl x4 y4q 3 (slope (-4)) (slope 108) false ExNone = Ok p /\ (forall t, pw_call p [] t = Ok (F t)) /\
  forall t, -1 < t <= 3 -> Rabs (F t - t ^ 4) <= 24.
Proof.
  destruct gauss_meets_specs as (G1 & G2 & G3 & G4). assert (Hb : inb [] (ysh y4q)) by constructor.
  destruct (proj2 (C53_cubic_succeeds inv_wit gbanded gdense G1 3 x4 y4q (slope (-4)) (slope 108) ExNone G3 (or_intror eq_refl) x4_incr)) as [p E].
  { repeat split; cbn; try lia; apply slope_fit. }
  destruct (C110_complete inv_wit gbanded gdense G1 x4 y4q (slope (-4)) (slope 108) (scalar (-4)) (scalar 108) ExNone p [] quart 24 2 x4_incr E Hb quart_smooth x4_spacing) as (F & HC & B & _);
    try reflexivity.
  - intros [|[|[|[|i]]]] Hi; cbn in Hi |- *; try lia; unfold quart, dD; cbn; ring.
  - unfold quart, dD. cbn. ring.
  - unfold quart, dD. cbn. ring.
  - exists p, F. split; [exact E|]. split; [exact HC|]. intros t Ht. specialize (B t Ht). replace (t ^ 4) with (quart 0 t) by (unfold quart, dD; cbn; ring). lra.
Qed.
(* the sine on [0, pi], without end conditions *)
Definition trig (k : nat) : R -> R := match (k mod 4)%nat with 0%nat => sin | 1%nat => cos | 2%nat => fun t => - sin t | _ => fun t => - cos t end.
Lemma trig_smooth u v : smooth 4 trig u v 1.
Proof.
  split.
  - intros [|[|[|[|k]]]] t Hk _; try lia; unfold trig; cbn.
    + apply derivable_pt_lim_sin.
    + apply derivable_pt_lim_cos.
    + apply derivable_pt_lim_opp, derivable_pt_lim_sin.
    + replace (sin t) with (- - sin t) by ring. apply derivable_pt_lim_opp, derivable_pt_lim_cos.
  - intros t _. unfold trig. cbn. apply Rabs_le. pose proof (SIN_bound t). lra.
Qed.
Definition xpi : list R := [0; PI / 2; PI].
Definition ysin : yarr R := YArr [] 3 (fun _ i => nth i [0; 1; 0] 0).
Lemma xpi_incr : incr xpi.
Proof. pose proof PI_RGT_0. intros [|[|[|i]]] H'; cbn in *; try lia; lra. Qed.
Lemma xpi_spacing : spacing xpi (PI / 2).
Proof. intros [|[|[|i]]] H'; cbn in *; try lia; lra. Qed.
Lemma ysin_ok i : (i < 3)%nat -> yval ysin [] i = trig 0 (nth i xpi 0).
Proof. destruct i as [|[|[|i]]]; intros Hi; try lia; unfold trig; cbn; [rewrite sin_0|rewrite sin_PI2|rewrite sin_PI]; reflexivity. Qed.
Example C110_natural_case : exists p F, gspl xpi ysin 3 (BcTuple []) (BcTuple []) false ExNone = Ok p /\ (forall t, pw_call p [] t = Ok (F t)) /\
  forall t, 0 < t <= PI -> Rabs (F t - sin t) <= (PI / 2) ^ 4 / 16.
Proof.
  destruct gauss_meets_specs as (G1 & G2 & G3 & G4). assert (Hb : inb [] (ysh ysin)) by constructor.
  destruct (C53_natural_succeeds inv_wit gbanded gdense G1 2 xpi ysin ExNone G3 (le_n 2) xpi_incr ltac:(cbn; lia) eq_refl ltac:(cbn; lia)) as [p E].
  destruct (C110_natural inv_wit gbanded gdense G1 xpi ysin ExNone p [] trig 1 (PI / 2) xpi_incr E Hb (trig_smooth _ _) xpi_spacing ysin_ok) as (F & HC & B & _).
  - unfold trig. cbn. rewrite sin_0. ring.
  - unfold trig. cbn. rewrite sin_PI. ring.
  - exists p, F. split; [exact E|]. split; [exact HC|]. intros t Ht. specialize (B t Ht). rewrite Rmult_1_l in B. exact B.
Qed.
(* the sine on a whole period *)
Definition xpi2 : list R := [0; PI / 2; 3 * (PI / 2); 2 * PI].
Definition ysin2 : yarr R := YArr [] 4 (fun _ i => nth i [0; 1; -1; 0] 0).
Example C110_periodic_case : exists p F, gspl xpi2 ysin2 3 (BcTuple []) (BcTuple []) true ExNone = Ok p /\ (forall t, pw_call p [] t = Ok (F t)) /\
  forall t, 0 < t <= 2 * PI -> Rabs (F t - sin t) <= PI ^ 4 / 16.
Proof.
  pose proof PI_RGT_0 as HPI. destruct gauss_meets_specs as (G1 & G2 & G3 & G4). assert (Hb : inb [] (ysh ysin2)) by constructor. assert (H2 : (2 <= length xpi2)%nat) by (cbn; lia).
  assert (Hi : incr xpi2) by (intros [|[|[|[|i]]]] H'; cbn in *; try lia; lra).
  destruct (C56_odd_succeeds inv_wit gbanded gdense G1 G2 2 xpi2 ysin2 G3 G4 (le_n 2) Hi H2 eq_refl ltac:(cbn; lia)) as [p E].
  destruct (C110_periodic inv_wit gbanded gdense G1 G2 xpi2 ysin2 p [] trig 1 PI Hi H2 eq_refl ltac:(cbn; lia) E Hb (trig_smooth _ _)) as (F & HC & (B & _) & _).
  - intros [|[|[|[|i]]]] H'; cbn in *; try lia; lra.
  - intros [|[|[|[|i]]]] H'; cbn in H'; try lia; unfold trig; cbn; [rewrite sin_0|rewrite sin_PI2|rewrite sin_3PI2|rewrite sin_2PI]; reflexivity.
  - intros [|[|[|k]]] Hk; try lia; unfold trig; cbn; rewrite ?sin_2PI, ?sin_0, ?cos_2PI, ?cos_0; reflexivity.
  - exists p, F. split; [exact E|]. split; [exact HC|]. intros t Ht. specialize (B t Ht). rewrite Rmult_1_l in B. exact B.
Qed.
Example C110_pline_case : exists p, gpline xpi ysin ExNone false = Ok p /\
  forall t, 0 < t <= PI -> exists v, pw_call p [] t = Ok v /\ Rabs (v - sin t) <= (PI / 2) ^ 2 / 8.
Proof.
  destruct (C110_pline inv_wit gbanded gdense inv_spec_nonvacuous xpi ysin ExNone 0 0 [] trig 1 (PI / 2) xpi_incr) as (p & E & B); try reflexivity; try (cbn; lia).
  - constructor.
  - split; [intros k t Hk Ht; apply (trig_smooth 0 PI); [lia|exact Ht]|]. intros t _. unfold trig. cbn. rewrite Rabs_Ropp. apply Rabs_le. pose proof (SIN_bound t). lra.
  - exact xpi_spacing.
  - exact ysin_ok.
  - exists p. split; [exact E|]. intros t Ht. destruct (B t Ht) as (v & E1 & E2). exists v. split; [exact E1|]. rewrite Rmult_1_l in E2. exact E2.
Qed.
