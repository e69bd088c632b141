(* C131: rotation matrices in double precision.  npplus/randomx.py:178-230.
   One matrix, element by element; shapes and axes are those of RandomX.v. *)
From Coq Require Import List Arith ZArith Bool Lia Reals Lra.
From Flocq Require Import Core BinarySingleNaN Mult_error.
From Verif Require Import Num PyBase NdArray RSum PropsRotation Float64 PropsFloat FloatErr PropsFloatPw PropsFloatPline PropsFloatElem PropsFloatAtan PropsFloatSpanl PropsFloatRandom.
Import ListNotations.
Local Open Scope R_scope.

Section Rot.
  (* numpy.cos and numpy.sin of doubles, those of the C library *)
  Variable fcos fsin : f64 -> f64.
  (* one matrix, element i, j, randomx.py:217-227:
       r = sqrt(z)
       v = concatenate((r*sin(phi), r*cos(phi), sqrt(2.-z)))
       st, ct = sin(theta), cos(theta)
       s = concatenate((v[0]*ct - v[1]*st, v[0]*st + v[1]*ct))
       m = v[:, newaxis].repeat(3, axis=1)
       m[:, :2] *= s
       m[0, :2] -= concatenate((ct, st))
       m[1, :2] += concatenate((st, -ct))
       m[:2, 2] *= v[2]
       m[2, 2] = 1. - z *)
  Definition frot (theta phi z : f64) (i j : nat) : f64 :=
    let r := fsqrt z in
    let v0 := nmul r (fsin phi) in
    let v1 := nmul r (fcos phi) in
    let v2 := fsqrt (nsub (nofZ 2) z) in
    let st := fsin theta in
    let ct := fcos theta in
    let s0 := nsub (nmul v0 ct) (nmul v1 st) in
    let s1 := nadd (nmul v0 st) (nmul v1 ct) in
    match i, j with
    | 0%nat, 0%nat => nsub (nmul v0 s0) ct | 0%nat, 1%nat => nsub (nmul v0 s1) st | 0%nat, 2%nat => nmul v0 v2
    | 1%nat, 0%nat => nadd (nmul v1 s0) st | 1%nat, 1%nat => nadd (nmul v1 s1) (nopp ct) | 1%nat, 2%nat => nmul v1 v2
    | 2%nat, 0%nat => nmul v2 s0 | 2%nat, 1%nat => nmul v2 s1 | _, _ => nsub n1 z
    end.
  (* numpy.pi *)
  Variable fpi : f64.
  (* theta, phi, z = 2. * random((3, 1) + size); theta *= pi; phi *= pi, randomx.py:214-216 *)
  Definition frotation (u0 u1 u2 : f64) : nat -> nat -> f64 :=
    frot (nmul (nmul (nofZ 2) u0) fpi) (nmul (nmul (nofZ 2) u1) fpi) (nmul (nofZ 2) u2).
End Rot.

(** ** Errors in units of 2^-53 *)
(* x is y up to e units, and y is at most B *)
Definition near (x : f64) (y B e : R) : Prop := fin x /\ Rabs y <= B /\ Rabs (val x - y) <= e * uro.
Lemma uf_small : uflow <= / 10 * uro.
Proof. pose proof FloatErr.tiny. pose proof uflow_pos. pose proof uro_pos. lra. Qed.
Lemma near_bound x y B B' e : near x y B e -> Rabs y <= B' -> near x y B' e.
Proof. intros (F & _ & E) H. split; [exact F|]. split; assumption. Qed.
Lemma near_le x y B e e' : near x y B e -> e <= e' -> near x y B e'.
Proof. intros (F & H & E) L. split; [exact F|]. split; [exact H|]. pose proof uro_pos. assert (e * uro <= e' * uro) by (apply Rmult_le_compat_r; lra). lra. Qed.
Lemma near_rnd (w : f64) (x y B e d : R) : fin w -> val w = rnd x -> Rabs y <= B -> Rabs (x - y) <= d -> 0 <= B -> d <= e * uro -> 0 <= e <= 100000 ->
  Rabs (val w - y) <= d + (B + / 2) * uro.
Proof.
  intros F V HB Hd B0 He Be. pose proof (rnd_abs x) as R. rewrite <- V in R. pose proof uf_small as UF. pose proof uro_lt as U. pose proof uro_pos.
  assert (X : Rabs x <= B + d). { replace x with (y + (x - y)) by ring. eapply Rle_trans; [apply Rabs_triang|]. lra. }
  assert (M : uro * Rabs x <= uro * (B + d)) by (apply Rmult_le_compat_l; lra).
  assert (D : d <= / 10). { assert (e * uro <= 100000 * uro) by (apply Rmult_le_compat_r; lra). lra. }
  assert (M2 : uro * (B + d) <= uro * (B + / 10)) by (apply Rmult_le_compat_l; lra).
  replace (val w - y) with ((val w - x) + (x - y)) by ring. eapply Rle_trans; [apply Rabs_triang|]. lra.
Qed.
Lemma near_mul x y B e x' y' B' e' : near x y B e -> near x' y' B' e' -> 0 <= e <= 100 -> 0 <= e' <= 100 -> 0 <= B <= 10 -> 0 <= B' <= 10 ->
  near (nmul x x') (y * y') (B * B') (B * e' + B' * e + B * B' + 1).
Proof.
  intros (F & H & E) (F' & H' & E') He He' HB HB'. pose proof uro_pos as U0. pose proof uro_lt as U. pose proof p301.
  assert (EU : e * e' * (uro * uro) <= / 4 * uro).
  { assert (e * e' <= 100 * 100) by (apply Rmult_le_compat; lra). assert (0 <= e * e') by nra. assert (uro * uro <= / 100000 * uro) by (apply Rmult_le_compat_r; lra).
    assert (e * e' * (uro * uro) <= 10000 * (uro * uro)) by (apply Rmult_le_compat_r; [nra|lra]). lra. }
  assert (D : Rabs (val x * val x' - y * y') <= (B * e' + B' * e + / 4) * uro).
  { replace (val x * val x' - y * y') with ((val x - y) * (val x' - y') + (y * (val x' - y') + y' * (val x - y))) by ring.
    eapply Rle_trans; [apply Rabs_triang|]. pose proof (Rabs_triang (y * (val x' - y')) (y' * (val x - y))) as T. rewrite !Rabs_mult in T. rewrite Rabs_mult.
    assert (M1 : Rabs (val x - y) * Rabs (val x' - y') <= (e * uro) * (e' * uro)) by (apply Rmult_le_compat; auto using Rabs_pos).
    assert (M2 : Rabs y * Rabs (val x' - y') <= B * (e' * uro)) by (apply Rmult_le_compat; auto using Rabs_pos).
    assert (M3 : Rabs y' * Rabs (val x - y) <= B' * (e * uro)) by (apply Rmult_le_compat; auto using Rabs_pos). nra. }
  assert (Y : Rabs (y * y') <= B * B') by (rewrite Rabs_mult; apply Rmult_le_compat; auto using Rabs_pos).
  assert (Q1 : 0 <= B * e' <= 10 * 100) by (split; [nra|apply Rmult_le_compat; lra]). assert (Q2 : 0 <= B' * e <= 10 * 100) by (split; [nra|apply Rmult_le_compat; lra]).
  assert (Q3 : 0 <= B * B' <= 10 * 10) by (split; [nra|apply Rmult_le_compat; lra]).
  assert (SM : Rabs (val x * val x') <= 10 ^ 301).
  { assert (P : 1000 <= 10 ^ 301) by (replace 1000 with (10 ^ 3) by ring; apply Rle_pow; [lra|lia]).
    replace (val x * val x') with (y * y' + (val x * val x' - y * y')) by ring. eapply Rle_trans; [apply Rabs_triang|].
    assert ((B * e' + B' * e + / 4) * uro <= 3000 * uro) by (apply Rmult_le_compat_r; lra). lra. }
  destruct (fmul_ok x x' F F' SM) as [Fm Vm]. split; [exact Fm|]. split; [exact Y|].
  pose proof (near_rnd _ _ _ _ (B * e' + B' * e + / 4) _ Fm Vm Y D ltac:(lra) ltac:(lra) ltac:(lra)). lra.
Qed.
Lemma near_lin (w : f64) (x y e x' y' e' s B : R) : fin w -> val w = rnd (x + s * x') -> s = 1 \/ s = -1 -> Rabs (x - y) <= e * uro -> Rabs (x' - y') <= e' * uro ->
  Rabs (y + s * y') <= B -> 0 <= e <= 100 -> 0 <= e' <= 100 -> near w (y + s * y') B (e + e' + B + 1).
Proof.
  intros F V S E E' H He He'. split; [exact F|]. split; [exact H|]. pose proof uro_pos. pose proof (Rabs_pos (y + s * y')).
  assert (D : Rabs (x + s * x' - (y + s * y')) <= (e + e') * uro).
  { replace (x + s * x' - (y + s * y')) with ((x - y) + s * (x' - y')) by ring. eapply Rle_trans; [apply Rabs_triang|]. rewrite Rabs_mult.
    assert (A : Rabs s = 1) by (destruct S as [-> | ->]; [apply Rabs_R1|rewrite Rabs_left; lra]). rewrite A. lra. }
  pose proof (near_rnd _ _ _ _ (e + e') _ F V H D ltac:(lra) ltac:(lra) ltac:(lra)). lra.
Qed.
Lemma near_small x y B e : near x y B e -> 0 <= e <= 100 -> B <= 10 -> Rabs (val x) <= 11.
Proof.
  intros (_ & H & E) He HB. pose proof uro_lt. assert (e * uro <= 100 * uro) by (apply Rmult_le_compat_r; lra).
  replace (val x) with (y + (val x - y)) by ring. eapply Rle_trans; [apply Rabs_triang|]. lra.
Qed.
Lemma p22 : 22 <= 10 ^ 301.
Proof. apply Rle_trans with (10 ^ 2); [lra|apply Rle_pow; [lra|lia]]. Qed.
Lemma near_add x y B e x' y' B' e' C : near x y B e -> near x' y' B' e' -> 0 <= e <= 100 -> 0 <= e' <= 100 -> B <= 10 -> B' <= 10 -> Rabs (y + y') <= C ->
  near (nadd x x') (y + y') C (e + e' + C + 1).
Proof.
  intros N N' He He' HB HB' HC. pose proof (near_small _ _ _ _ N He HB) as S. pose proof (near_small _ _ _ _ N' He' HB') as S'. pose proof p22. destruct N as (F & H1 & E), N' as (F' & H' & E').
  destruct (fadd_ok x x' F F') as [Fa Va]; [eapply Rle_trans; [apply Rabs_triang|]; lra|].
  replace (y + y') with (y + 1 * y') in * by ring. apply (near_lin _ (val x) _ _ (val x')); auto. rewrite Va. f_equal. ring.
Qed.
Lemma near_sub x y B e x' y' B' e' C : near x y B e -> near x' y' B' e' -> 0 <= e <= 100 -> 0 <= e' <= 100 -> B <= 10 -> B' <= 10 -> Rabs (y - y') <= C ->
  near (nsub x x') (y - y') C (e + e' + C + 1).
Proof.
  intros N N' He He' HB HB' HC. pose proof (near_small _ _ _ _ N He HB) as S. pose proof (near_small _ _ _ _ N' He' HB') as S'. pose proof p22. destruct N as (F & H1 & E), N' as (F' & H' & E').
  destruct (fsub_ok x x' F F') as [Fa Va]; [unfold Rminus; eapply Rle_trans; [apply Rabs_triang|]; rewrite Rabs_Ropp; lra|].
  replace (y - y') with (y + (-1) * y') in * by ring. apply (near_lin _ (val x) _ _ (val x')); auto. rewrite Va. f_equal. ring.
Qed.
Lemma near_opp x y B e : near x y B e -> near (nopp x) (- y) B e.
Proof.
  intros (F & H & E). split; [|split].
  - unfold fin in *. cbn [nopp NumF]. destruct x; auto.
  - now rewrite Rabs_Ropp.
  - rewrite val_opp. replace (- val x - - y) with (- (val x - y)) by ring. now rewrite Rabs_Ropp.
Qed.
Lemma sqrt_2b x : 0 <= x <= 2 -> 0 <= sqrt x <= 3 / 2.
Proof. intros H. split; [apply sqrt_pos|]. replace (3 / 2) with (sqrt (3 / 2 * (3 / 2))) by (rewrite sqrt_square; lra). apply sqrt_le_1; lra. Qed.
Lemma near_sqrt z : fin z -> 0 <= val z <= 2 -> near (fsqrt z) (sqrt (val z)) (3 / 2) 2.
Proof.
  intros F H. destruct (fsqrt_ok z F (proj1 H)) as [Fs Vs]. pose proof (sqrt_2b _ H) as B. assert (A : Rabs (sqrt (val z)) <= 3 / 2) by (apply Rabs_le; lra). split; [exact Fs|]. split; [exact A|].
  pose proof (near_rnd _ _ (sqrt (val z)) (3 / 2) 0 0 Fs Vs A ltac:(rewrite Rminus_eq_0, Rabs_R0; lra) ltac:(lra) ltac:(lra) ltac:(lra)). lra.
Qed.
Lemma near_sqrt2 z : fin z -> 0 <= val z <= 2 -> near (fsqrt (nsub (nofZ 2) z)) (sqrt (2 - val z)) (3 / 2) 4.
Proof.
  intros F H. destruct (fofZ_val 2 ltac:(lia)) as [F2 V2]. pose proof p301. pose proof uro_lt as U.
  destruct (fsub_ok (nofZ 2) z F2 F) as [Fd Vd]; [rewrite V2; apply Rabs_le; lra|]. rewrite V2 in Vd. set (d := nsub (nofZ 2) z) in *.
  destruct (rnd_plus_err (nofZ 2) (nopp z)) as (e & He & Ee). rewrite V2, val_opp in Ee. replace (2 + - val z) with (2 - val z) in Ee by ring. rewrite <- Vd in Ee.
  apply Rabs_le_inv in He. assert (D0 : 0 <= val d) by (rewrite Ee; apply Rmult_le_pos; lra).
  destruct (fsqrt_ok d Fd D0) as [Fs Vs]. pose proof (sqrt_2b (2 - val z) ltac:(lra)) as B. set (s := sqrt (2 - val z)) in *.
  assert (A : Rabs s <= 3 / 2) by (apply Rabs_le; lra). split; [exact Fs|]. split; [exact A|].
  assert (D : Rabs (sqrt (val d) - s) <= 3 / 2 * uro).
  { rewrite Ee, sqrt_mult by lra. fold s. replace (s * sqrt (1 + e) - s) with (s * (sqrt (1 + e) - 1)) by ring. rewrite Rabs_mult. apply Rmult_le_compat; auto using Rabs_pos.
    assert (S0 : 0 <= sqrt (1 + e)) by apply sqrt_pos. assert (SS : sqrt (1 + e) * sqrt (1 + e) = 1 + e) by (apply sqrt_sqrt; lra).
    apply Rabs_le. split; nra. }
  pose proof (near_rnd _ _ s (3 / 2) (3 / 2) _ Fs Vs A D ltac:(lra) ltac:(lra) ltac:(lra)). lra.
Qed.

(** ** C131 *)
(* The real rotation matrix of C76 with angles theta and phi and tilt z. *)
Definition rrot (theta phi z : R) : nat -> nat -> R := rot (theta / (2 * PI)) (phi / (2 * PI)) (z / 2).
Lemma rrot_eq theta phi z i j : rrot theta phi z i j =
  let v0 := sqrt z * sin phi in let v1 := sqrt z * cos phi in let v2 := sqrt (2 - z) in
  let st := sin theta in let ct := cos theta in
  let s0 := v0 * ct - v1 * st in let s1 := v0 * st + v1 * ct in
  match i, j with
  | 0%nat, 0%nat => v0 * s0 - ct | 0%nat, 1%nat => v0 * s1 - st | 0%nat, 2%nat => v0 * v2
  | 1%nat, 0%nat => v1 * s0 + st | 1%nat, 1%nat => v1 * s1 + - ct | 1%nat, 2%nat => v1 * v2
  | 2%nat, 0%nat => v2 * s0 | 2%nat, 1%nat => v2 * s1 | _, _ => 1 - z
  end.
Proof.
  unfold rrot, rot. pose proof PI_RGT_0. replace (2 * (theta / (2 * PI)) * PI) with theta by (field; lra).
  replace (2 * (phi / (2 * PI)) * PI) with phi by (field; lra). replace (2 * (z / 2)) with z by field. reflexivity.
Qed.
(* every element of the computed matrix is that of an exact rotation matrix up to 54 units of 2^-53 *)
Theorem C131_elements fcos fsin theta phi z : trig_good fcos cos -> trig_good fsin sin -> fin theta -> fin phi -> fin z -> 0 <= val z <= 2 ->
  orthogonal3 (rrot (val theta) (val phi) (val z)) /\ det3 (rrot (val theta) (val phi) (val z)) = 1 /\
  forall i j, (i < 3)%nat -> (j < 3)%nat ->
    fin (frot fcos fsin theta phi z i j) /\ Rabs (val (frot fcos fsin theta phi z i j) - rrot (val theta) (val phi) (val z) i j) <= 54 * uro.
Proof.
  intros GC GS Ft Fp Fz Hz. destruct (rot_rotation (val theta / (2 * PI)) (val phi / (2 * PI)) (val z / 2) ltac:(lra)) as [O D].
  split; [exact O|]. split; [exact D|]. intros i j Hi Hj. rewrite rrot_eq. cbn zeta. unfold frot. cbn zeta.
  destruct (GC theta Ft) as (F1 & _ & E1). destruct (GS theta Ft) as (F2 & _ & E2). destruct (GC phi Fp) as (F3 & _ & E3). destruct (GS phi Fp) as (F4 & _ & E4).
  assert (Nct : near (fcos theta) (cos (val theta)) 1 1) by (split; [exact F1|]; split; [apply Rabs_le, COS_bound|lra]).
  assert (Nst : near (fsin theta) (sin (val theta)) 1 1) by (split; [exact F2|]; split; [apply Rabs_le, SIN_bound|lra]).
  assert (Ncp : near (fcos phi) (cos (val phi)) 1 1) by (split; [exact F3|]; split; [apply Rabs_le, COS_bound|lra]).
  assert (Nsp : near (fsin phi) (sin (val phi)) 1 1) by (split; [exact F4|]; split; [apply Rabs_le, SIN_bound|lra]).
  pose proof (near_sqrt z Fz Hz) as Nr. pose proof (near_sqrt2 z Fz Hz) as N2.
  pose proof (sqrt_2b _ Hz) as Br. pose proof (sin_minus (val phi) (val theta)) as SM. pose proof (cos_minus (val phi) (val theta)) as CM.
  pose proof (near_mul _ _ _ _ _ _ _ _ Nr Nsp ltac:(lra) ltac:(lra) ltac:(lra) ltac:(lra)) as N0.
  pose proof (near_mul _ _ _ _ _ _ _ _ Nr Ncp ltac:(lra) ltac:(lra) ltac:(lra) ltac:(lra)) as N1.
  pose proof (near_mul _ _ _ _ _ _ _ _ N0 Nct ltac:(lra) ltac:(lra) ltac:(lra) ltac:(lra)) as P1.
  pose proof (near_mul _ _ _ _ _ _ _ _ N1 Nst ltac:(lra) ltac:(lra) ltac:(lra) ltac:(lra)) as P2.
  pose proof (near_mul _ _ _ _ _ _ _ _ N0 Nst ltac:(lra) ltac:(lra) ltac:(lra) ltac:(lra)) as P3.
  pose proof (near_mul _ _ _ _ _ _ _ _ N1 Nct ltac:(lra) ltac:(lra) ltac:(lra) ltac:(lra)) as P4.
  assert (M : forall a, -1 <= a <= 1 -> Rabs (sqrt (val z) * a) <= 3 / 2).
  { intros a Ha. rewrite Rabs_mult, (Rabs_pos_eq (sqrt _)) by lra. replace (3 / 2) with (3 / 2 * 1) by ring. apply Rmult_le_compat; try lra; [apply Rabs_pos|apply Rabs_le; lra]. }
  pose proof (near_sub _ _ _ _ _ _ _ _ (3 / 2) P1 P2 ltac:(lra) ltac:(lra) ltac:(lra) ltac:(lra)) as S0.
  pose proof (near_add _ _ _ _ _ _ _ _ (3 / 2) P3 P4 ltac:(lra) ltac:(lra) ltac:(lra) ltac:(lra)) as S1.
  specialize (S0 ltac:(replace (sqrt (val z) * sin (val phi) * cos (val theta) - sqrt (val z) * cos (val phi) * sin (val theta)) with (sqrt (val z) * sin (val phi - val theta)) by (rewrite SM; ring); apply M, SIN_bound)).
  specialize (S1 ltac:(replace (sqrt (val z) * sin (val phi) * sin (val theta) + sqrt (val z) * cos (val phi) * cos (val theta)) with (sqrt (val z) * cos (val phi - val theta)) by (rewrite CM; ring); apply M, COS_bound)).
  pose proof (near_mul _ _ _ _ _ _ _ _ N0 S0 ltac:(lra) ltac:(lra) ltac:(lra) ltac:(lra)) as A00.
  pose proof (near_mul _ _ _ _ _ _ _ _ N0 S1 ltac:(lra) ltac:(lra) ltac:(lra) ltac:(lra)) as A01.
  pose proof (near_mul _ _ _ _ _ _ _ _ N1 S0 ltac:(lra) ltac:(lra) ltac:(lra) ltac:(lra)) as A10.
  pose proof (near_mul _ _ _ _ _ _ _ _ N1 S1 ltac:(lra) ltac:(lra) ltac:(lra) ltac:(lra)) as A11.
  pose proof (near_mul _ _ _ _ _ _ _ _ N2 S0 ltac:(lra) ltac:(lra) ltac:(lra) ltac:(lra)) as A20.
  pose proof (near_mul _ _ _ _ _ _ _ _ N2 S1 ltac:(lra) ltac:(lra) ltac:(lra) ltac:(lra)) as A21.
  pose proof (near_mul _ _ _ _ _ _ _ _ N0 N2 ltac:(lra) ltac:(lra) ltac:(lra) ltac:(lra)) as A02.
  pose proof (near_mul _ _ _ _ _ _ _ _ N1 N2 ltac:(lra) ltac:(lra) ltac:(lra) ltac:(lra)) as A12.
  pose proof uro_pos as U0.
  assert (FIN : forall x y B e, near x y B e -> e <= 54 -> fin x /\ Rabs (val x - y) <= 54 * uro).
  { intros x y B e N L. destruct (near_le _ _ _ _ _ N L) as (F & _ & E). split; assumption. }
  assert (TP : forall a b B B', Rabs a <= B -> Rabs b <= B' -> Rabs (a + b) <= B + B') by (intros a b B B' Ha Hb; eapply Rle_trans; [apply Rabs_triang|lra]).
  assert (TM : forall a b B B', Rabs a <= B -> Rabs b <= B' -> Rabs (a - b) <= B + B') by (intros a b B B' Ha Hb; unfold Rminus; apply TP; [exact Ha|rewrite Rabs_Ropp; exact Hb]).
  destruct i as [|[|[|i]]]; [| | |lia]; (destruct j as [|[|[|j]]]; [| | |lia]).
  - eapply FIN; [eapply (near_sub _ _ _ _ _ _ _ _ _ A00 Nct); try lra; apply TM; [apply (proj1 (proj2 A00))|apply (proj1 (proj2 Nct))]|lra].
  - eapply FIN; [eapply (near_sub _ _ _ _ _ _ _ _ _ A01 Nst); try lra; apply TM; [apply (proj1 (proj2 A01))|apply (proj1 (proj2 Nst))]|lra].
  - eapply FIN; [exact A02|lra].
  - eapply FIN; [eapply (near_add _ _ _ _ _ _ _ _ _ A10 Nst); try lra; apply TP; [apply (proj1 (proj2 A10))|apply (proj1 (proj2 Nst))]|lra].
  - pose proof (near_opp _ _ _ _ Nct) as Nm. eapply FIN; [eapply (near_add _ _ _ _ _ _ _ _ _ A11 Nm); try lra; apply TP; [apply (proj1 (proj2 A11))|apply (proj1 (proj2 Nm))]|lra].
  - eapply FIN; [exact A12|lra].
  - eapply FIN; [exact A20|lra].
  - eapply FIN; [exact A21|lra].
  - destruct int1 as [Fo Vo]. assert (No : near n1 1 1 0) by (split; [exact Fo|]; split; [rewrite Rabs_R1; lra|rewrite Vo, Rminus_eq_0, Rabs_R0; lra]).
    assert (Nz : near z (val z) 2 0) by (split; [exact Fz|]; split; [apply Rabs_le; lra|rewrite Rminus_eq_0, Rabs_R0; lra]).
    eapply FIN; [eapply (near_sub _ _ _ _ _ _ _ _ 1 No Nz); try lra; apply Rabs_le; lra|lra].
Qed.
Print Assumptions C131_elements.

Lemma ortho_le1 m : orthogonal3 m -> forall i j, (i < 3)%nat -> (j < 3)%nat -> Rabs (m i j) <= 1.
Proof.
  intros O i j Hi Hj. pose proof (O i i Hi Hi) as E. unfold delta in E. rewrite Nat.eqb_refl in E. cbn [rsum] in E.
  pose proof (Rle_0_sqr (m i 0%nat)) as A. pose proof (Rle_0_sqr (m i 1%nat)) as B. pose proof (Rle_0_sqr (m i 2%nat)) as C. unfold Rsqr in *.
  assert (S : m i j * m i j <= 1) by (destruct j as [|[|[|j]]]; [lra|lra|lra|lia]). apply Rabs_le. split; nra.
Qed.
(* the rows of the computed matrix are orthonormal up to 330 units of 2^-53 *)
Theorem C131_orthogonal fcos fsin theta phi z : trig_good fcos cos -> trig_good fsin sin -> fin theta -> fin phi -> fin z -> 0 <= val z <= 2 ->
  forall i j, (i < 3)%nat -> (j < 3)%nat ->
    Rabs (rsum 3 (fun k => val (frot fcos fsin theta phi z i k) * val (frot fcos fsin theta phi z j k)) - delta i j) <= 330 * uro.
Proof.
  intros GC GS Ft Fp Fz Hz i j Hi Hj. destruct (C131_elements fcos fsin theta phi z GC GS Ft Fp Fz Hz) as (O & _ & E). pose proof (ortho_le1 _ O) as L.
  rewrite <- (O i j Hi Hj). cbn [rsum]. pose proof uro_lt as U. pose proof uro_pos as U0.
  assert (K : forall k, (k < 3)%nat -> Rabs (val (frot fcos fsin theta phi z i k) * val (frot fcos fsin theta phi z j k) - rrot (val theta) (val phi) (val z) i k * rrot (val theta) (val phi) (val z) j k) <= 110 * uro).
  { intros k Hk. destruct (E i k Hi Hk) as [_ Ei]. destruct (E j k Hj Hk) as [_ Ej]. pose proof (L i k Hi Hk) as Li. pose proof (L j k Hj Hk) as Lj.
    set (a := val (frot fcos fsin theta phi z i k)) in *. set (b := val (frot fcos fsin theta phi z j k)) in *.
    set (c := rrot (val theta) (val phi) (val z) i k) in *. set (d := rrot (val theta) (val phi) (val z) j k) in *.
    replace (a * b - c * d) with ((a - c) * (b - d) + (c * (b - d) + d * (a - c))) by ring. eapply Rle_trans; [apply Rabs_triang|].
    pose proof (Rabs_triang (c * (b - d)) (d * (a - c))) as T. rewrite !Rabs_mult in T. rewrite Rabs_mult.
    assert (M1 : Rabs (a - c) * Rabs (b - d) <= (54 * uro) * (54 * uro)) by (apply Rmult_le_compat; auto using Rabs_pos).
    assert (M2 : Rabs c * Rabs (b - d) <= 1 * (54 * uro)) by (apply Rmult_le_compat; auto using Rabs_pos).
    assert (M3 : Rabs d * Rabs (a - c) <= 1 * (54 * uro)) by (apply Rmult_le_compat; auto using Rabs_pos).
    assert (uro * uro <= / 100000 * uro) by (apply Rmult_le_compat_r; lra). lra. }
  pose proof (K 0%nat ltac:(lia)) as K0. pose proof (K 1%nat ltac:(lia)) as K1. pose proof (K 2%nat ltac:(lia)) as K2.
  apply Rabs_le_inv in K0, K1, K2. apply Rabs_le. lra.
Qed.
Print Assumptions C131_orthogonal.

(* for all draws: twice a draw is exact, and the angles are those of the draws up to 18 units *)
Lemma rnd_twice (u : f64) : rnd (2 * val u) = 2 * val u.
Proof.
  rewrite rnd_FLT. apply round_generic; auto with typeclass_instances. replace (2 * val u) with (val u * bpow radix2 1) by (cbn; ring).
  apply mult_bpow_pos_exact_FLT; [|lia]. apply generic_format_B2R.
Qed.
Lemma twice u : fin u -> 0 <= val u < 1 -> fin (nmul (nofZ 2) u) /\ val (nmul (nofZ 2) u) = 2 * val u.
Proof.
  intros Fu Hu. destruct (fofZ_val 2 ltac:(lia)) as [F2 V2]. pose proof p301.
  destruct (fmul_ok (nofZ 2) u F2 Fu) as [Fm Vm]; [rewrite V2, Rabs_pos_eq; lra|]. rewrite V2 in Vm. split; [exact Fm|].
  rewrite Vm. apply rnd_twice.
Qed.
Lemma angle fpi u : fin fpi -> Rabs (val fpi - PI) <= 4 * uro -> fin u -> 0 <= val u < 1 ->
  fin (nmul (nmul (nofZ 2) u) fpi) /\ Rabs (val (nmul (nmul (nofZ 2) u) fpi) - 2 * PI * val u) <= 18 * uro.
Proof.
  intros Fp Hp Fu Hu. destruct (twice u Fu Hu) as [F V]. pose proof p301. pose proof PI_RGT_0. pose proof PI_4. pose proof uro_lt as U. pose proof uf_small as UF.
  assert (E : Rabs (2 * val u * val fpi - 2 * PI * val u) <= 8 * uro).
  { replace (2 * val u * val fpi - 2 * PI * val u) with (2 * val u * (val fpi - PI)) by ring. rewrite Rabs_mult, (Rabs_pos_eq (2 * val u)) by lra.
    replace (8 * uro) with (2 * (4 * uro)) by ring. apply Rmult_le_compat; try lra. apply Rabs_pos. }
  assert (P : 0 <= PI * val u <= 4 * 1) by (split; [nra|apply Rmult_le_compat; lra]).
  assert (B : Rabs (2 * val u * val fpi) <= 9) by (apply Rabs_le_inv in E; apply Rabs_le; lra).
  destruct (fmul_ok _ _ F Fp) as [Fm Vm]; [rewrite V; lra|]. split; [exact Fm|]. rewrite Vm, V. pose proof (rnd_abs (2 * val u * val fpi)) as R.
  assert (M : uro * Rabs (2 * val u * val fpi) <= uro * 9) by (apply Rmult_le_compat_l; lra).
  replace (rnd (2 * val u * val fpi) - 2 * PI * val u) with ((rnd (2 * val u * val fpi) - 2 * val u * val fpi) + (2 * val u * val fpi - 2 * PI * val u)) by ring.
  eapply Rle_trans; [apply Rabs_triang|]. lra.
Qed.
Theorem C131_draws fcos fsin fpi u0 u1 u2 : trig_good fcos cos -> trig_good fsin sin -> fin fpi -> Rabs (val fpi - PI) <= 4 * uro ->
  fin u0 -> 0 <= val u0 < 1 -> fin u1 -> 0 <= val u1 < 1 -> fin u2 -> 0 <= val u2 < 1 ->
  exists theta phi, Rabs (theta - 2 * PI * val u0) <= 18 * uro /\ Rabs (phi - 2 * PI * val u1) <= 18 * uro /\
  let m := rrot theta phi (2 * val u2) in orthogonal3 m /\ det3 m = 1 /\ forall i j, (i < 3)%nat -> (j < 3)%nat ->
    fin (frotation fcos fsin fpi u0 u1 u2 i j) /\ Rabs (val (frotation fcos fsin fpi u0 u1 u2 i j) - m i j) <= 54 * uro /\
    Rabs (rsum 3 (fun k => val (frotation fcos fsin fpi u0 u1 u2 i k) * val (frotation fcos fsin fpi u0 u1 u2 j k)) - delta i j) <= 330 * uro.
Proof.
  intros GC GS Fp Hp F0 H0 F1 H1 F2 H2. destruct (angle fpi u0 Fp Hp F0 H0) as [T ET]. destruct (angle fpi u1 Fp Hp F1 H1) as [P EP]. destruct (twice u2 F2 H2) as [Fz Vz].
  assert (Bz : 0 <= val (nmul (nofZ 2) u2) <= 2) by (rewrite Vz; lra).
  destruct (C131_elements fcos fsin _ _ _ GC GS T P Fz Bz) as (O & D & E). eexists. eexists. split; [exact ET|]. split; [exact EP|]. rewrite Vz in O, D, E. cbn zeta.
  split; [exact O|]. split; [exact D|]. intros i j Hi Hj.
  destruct (E i j Hi Hj) as [F G]. split; [exact F|]. split; [exact G|]. apply (C131_orthogonal fcos fsin _ _ _ GC GS T P Fz Bz i j Hi Hj).
Qed.
Print Assumptions C131_draws.
(* correctly rounded cos and sin, correctly rounded pi, draws 3/4, 7/8 and 3/4: tilt 3/2 *)
Example C131_case : trig_good (fun t => fround (cos (val t))) cos /\ trig_good (fun t => fround (sin (val t))) sin /\
  let u := fdy 3 (-2) in let v := fdy 7 (-3) in let p := fround PI in fin u /\ fin v /\ 0 <= val u < 1 /\ 0 <= val v < 1 /\ fin p /\ Rabs (val p - PI) <= 4 * uro /\
  val (frotation (fun t => fround (cos (val t))) (fun t => fround (sin (val t))) p u v u 2 2) = - (1 / 2).
Proof.
  split; [apply trig_round; intros t; apply COS_bound|]. split; [apply trig_round; intros t; apply SIN_bound|]. intros u v p.
  assert (B1 : B2SF u = SpecFloat.S754_finite false 6755399441055744 (-53)) by (vm_compute; reflexivity). assert (B2 : B2SF v = SpecFloat.S754_finite false 7881299347898368 (-53)) by (vm_compute; reflexivity).
  set (w := frotation _ _ p u v u 2%nat 2%nat). assert (B3 : B2SF w = SpecFloat.S754_finite true 4503599627370496 (-53)) by (unfold w, frotation, frot; vm_compute; reflexivity).
  apply fx_val in B1, B2, B3. destruct B1 as [F1 V1]. destruct B2 as [F2 V2]. destruct B3 as [_ W].
  unfold SF2R, F2R in V1, V2, W. cbn [Fnum Fexp SpecFloat.cond_Zopp Z.opp] in V1, V2, W. replace (bpow radix2 (-53)) with (/ 2 ^ 53) in V1, V2, W by (cbn; lra).
  pose proof p301. pose proof PI_RGT_0. pose proof PI_4. pose proof uf_small. pose proof uro_pos.
  destruct (fround_ok PI) as [F4 V4]; [rewrite Rabs_pos_eq; lra|].
  split; [exact F1|]. split; [exact F2|]. split; [rewrite V1; lra|]. split; [rewrite V2; lra|]. split; [exact F4|]. split; [unfold p; rewrite V4; eapply Rle_trans; [apply rnd_rel|]; [rewrite Rabs_pos_eq by lra; apply Rle_trans with (/ 1); [apply Rinv_le_contravar; lra|pose proof PI2_1; lra]|rewrite Rabs_pos_eq by lra; rewrite Rmult_comm; apply Rmult_le_compat_r; lra]|].
  rewrite W. lra.
Qed.
