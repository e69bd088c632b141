(* Rounded polynomial arithmetic with error bounds: a pair (c, e) stands, at a point s of [-1,1],
   for the real numbers v with |U v - c(s)| <= e, where U > 0 is a fixed scale. *)
From Coq Require Import List Arith ZArith QArith Qreals Bool Lia Reals Lra.
From Verif Require Import PolySign PolyDer FermiInv.
Import ListNotations.
Open Scope R_scope.

Definition tm : Type := list Z * Z.
Definition ap (U : Z) (s : R) (x : tm) (v : R) : Prop := Rabs (IZR U * v - ev (fst x) s) <= IZR (snd x).

Definition sabs (c : list Z) : Z := fold_right (fun a b => Z.abs a + b)%Z 0%Z c.
Lemma sabs_nonneg c : (0 <= sabs c)%Z.
Proof. induction c as [|a c IH]; cbn [sabs fold_right]; [lia|]. fold (sabs c). lia. Qed.
Lemma ev_sabs c s : Rabs s <= 1 -> Rabs (ev c s) <= IZR (sabs c).
Proof.
  intros Hs. induction c as [|a c IH]; cbn [ev sabs fold_right]; [rewrite Rabs_R0; lra|]. fold (sabs c).
  rewrite plus_IZR, abs_IZR. eapply Rle_trans; [apply Rabs_triang|]. apply Rplus_le_compat_l.
  rewrite Rabs_mult. eapply Rle_trans; [apply Rmult_le_compat_r; [apply Rabs_pos|exact Hs]|]. lra.
Qed.

(* a rational constant *)
Definition tconst (U : Z) (q : Q) : tm := ([(Qnum q * U / Zpos (Qden q))%Z], 1%Z).
Lemma tconst_ok U s q : ap U s (tconst U q) (Q2R q).
Proof.
  unfold ap, tconst. cbn [fst snd ev]. unfold Q2R. set (d := Zpos (Qden q)). assert (D : (0 < d)%Z) by (unfold d; lia).
  pose proof (Z.div_mod (Qnum q * U) d ltac:(lia)) as E. pose proof (Z.mod_pos_bound (Qnum q * U) d D) as B.
  set (k := (Qnum q * U / d)%Z) in *. set (r := ((Qnum q * U) mod d)%Z) in *. clearbody k r.
  apply IZR_lt in D. assert (E' : IZR (Qnum q) * IZR U = IZR d * IZR k + IZR r) by (rewrite <- !mult_IZR, <- plus_IZR; now f_equal).
  destruct B as [B0 B1]. apply IZR_le in B0. apply IZR_lt in B1.
  replace (IZR U * (IZR (Qnum q) * / IZR d) - (IZR k + s * 0)) with (IZR r / IZR d).
  2: { replace (IZR r) with (IZR (Qnum q) * IZR U - IZR d * IZR k) by lra. field. lra. }
  rewrite Rabs_right; [|apply Rle_ge, Rmult_le_pos; [lra|apply Rlt_le, Rinv_0_lt_compat; lra]].
  apply Rmult_le_reg_r with (IZR d); auto. replace (IZR r / IZR d * IZR d) with (IZR r) by (field; lra). lra.
Qed.
(* a + b s, for the interval of centre a and half width b *)
Definition tvar (U : Z) (a b : Q) : tm := ([(Qnum a * U / Zpos (Qden a))%Z; (Qnum b * U / Zpos (Qden b))%Z], 2%Z).
Lemma tvar_ok U s a b : Rabs s <= 1 -> ap U s (tvar U a b) (Q2R a + Q2R b * s).
Proof.
  intros Hs. pose proof (tconst_ok U s a) as A. pose proof (tconst_ok U s b) as B.
  unfold ap, tconst, tvar in *. cbn [fst snd ev] in *. rewrite !Rmult_0_r, !Rplus_0_r in *.
  set (ka := IZR (Qnum a * U / Z.pos (Qden a))) in *. set (kb := IZR (Qnum b * U / Z.pos (Qden b))) in *. clearbody ka kb.
  replace (IZR U * (Q2R a + Q2R b * s) - (ka + s * kb)) with ((IZR U * Q2R a - ka) + s * (IZR U * Q2R b - kb)) by ring.
  eapply Rle_trans; [apply Rabs_triang|]. rewrite Rabs_mult.
  assert (Rabs s * Rabs (IZR U * Q2R b - kb) <= 1 * 1); [|lra].
  apply Rmult_le_compat; auto using Rabs_pos.
Qed.
(* a polynomial in s with the scale W, U = W g *)
Definition tpoly (g : Z) (c : list Z) : tm := (pscale g c, 0%Z).
Lemma tpoly_ok U W g s c : (0 < W)%Z -> (U = W * g)%Z -> ap U s (tpoly g c) (ev c s / IZR W).
Proof.
  intros HW ->. unfold ap, tpoly. cbn [fst snd]. rewrite ev_pscale, mult_IZR. apply IZR_lt in HW.
  replace (IZR W * IZR g * (ev c s / IZR W) - IZR g * ev c s) with 0 by (field; lra). rewrite Rabs_R0. lra.
Qed.
Definition tadd (x y : tm) : tm := (padd (fst x) (fst y), snd x + snd y)%Z.
Lemma tadd_ok U s x y v w : ap U s x v -> ap U s y w -> ap U s (tadd x y) (v + w).
Proof.
  unfold ap, tadd. cbn [fst snd]. intros A B. rewrite ev_padd, plus_IZR.
  replace (IZR U * (v + w) - (ev (fst x) s + ev (fst y) s)) with ((IZR U * v - ev (fst x) s) + (IZR U * w - ev (fst y) s)) by ring.
  eapply Rle_trans; [apply Rabs_triang|]. lra.
Qed.
Definition tscale (k : Z) (x : tm) : tm := (pscale k (fst x), Z.abs k * snd x)%Z.
Lemma tscale_ok U s k x v : ap U s x v -> ap U s (tscale k x) (IZR k * v).
Proof.
  unfold ap, tscale. cbn [fst snd]. intros A. rewrite ev_pscale, mult_IZR, abs_IZR.
  replace (IZR U * (IZR k * v) - IZR k * ev (fst x) s) with (IZR k * (IZR U * v - ev (fst x) s)) by ring.
  rewrite Rabs_mult. apply Rmult_le_compat_l; auto using Rabs_pos.
Qed.
(* division of the coefficients by U, keeping K of them *)
Definition ceilq (a U : Z) : Z := (a / U + 1)%Z.
Lemma ceilq_ok a U : (0 < U)%Z -> IZR a / IZR U <= IZR (ceilq a U).
Proof.
  intros H. unfold ceilq. pose proof (Z.div_mod a U ltac:(lia)) as E. pose proof (Z.mod_pos_bound a U H) as B.
  set (k := (a / U)%Z) in *. set (r := (a mod U)%Z) in *. clearbody k r. subst a.
  rewrite !plus_IZR, mult_IZR. destruct B as [_ B]. apply IZR_lt in B. apply IZR_lt in H.
  apply Rmult_le_reg_r with (IZR U); auto. replace ((IZR U * IZR k + IZR r) / IZR U * IZR U) with (IZR U * IZR k + IZR r) by (field; lra). lra.
Qed.
Definition rdiv (U : Z) (c : list Z) : list Z :=
  let l := Z.log2 U in if (U =? 2 ^ l)%Z then map (fun a => Z.shiftr a l) c else map (fun a => (a / U)%Z) c.
Lemma rdiv_eq U c : rdiv U c = map (fun a => (a / U)%Z) c.
Proof.
  unfold rdiv. cbv zeta. destruct (Z.eqb_spec U (2 ^ Z.log2 U)) as [E|E]; auto. apply map_ext. intros a.
  rewrite Z.shiftr_div_pow2 by apply Z.log2_nonneg. now rewrite <- E.
Qed.
Lemma rdiv_ok U c s : (0 < U)%Z -> Rabs s <= 1 -> Rabs (ev c s / IZR U - ev (rdiv U c) s) <= IZR (Z.of_nat (length c)).
Proof.
  intros HU Hs. pose proof (IZR_lt _ _ HU) as RU. rewrite rdiv_eq. set (rd := fun c => map (fun a => (a / U)%Z) c). change (map (fun a => (a / U)%Z) c) with (rd c).
  induction c as [|a c IH]; cbn [rd map ev length].
  { unfold Rdiv. rewrite Rmult_0_l, Rminus_0_r, Rabs_R0. cbn. lra. }
  change (map (fun a => (a / U)%Z) c) with (rd c).
  rewrite Nat2Z.inj_succ, succ_IZR.
  pose proof (Z.div_mod a U ltac:(lia)) as E. pose proof (Z.mod_pos_bound a U HU) as B.
  set (k := (a / U)%Z) in *. set (r := (a mod U)%Z) in *. clearbody k r. subst a.
  replace ((IZR (U * k + r) + s * ev c s) / IZR U - (IZR k + s * ev (rd c) s)) with (s * (ev c s / IZR U - ev (rd c) s) + IZR r / IZR U).
  2: { rewrite plus_IZR, mult_IZR. field. lra. }
  eapply Rle_trans; [apply Rabs_triang|]. rewrite Rabs_mult. apply Rplus_le_compat.
  - rewrite <- (Rmult_1_l (IZR (Z.of_nat (length c)))). apply Rmult_le_compat; auto using Rabs_pos.
  - destruct B as [B0 B1]. apply IZR_le in B0. apply IZR_lt in B1.
    rewrite Rabs_right; [|apply Rle_ge, Rmult_le_pos; [lra|apply Rlt_le, Rinv_0_lt_compat; lra]].
    apply Rmult_le_reg_r with (IZR U); auto. replace (IZR r / IZR U * IZR U) with (IZR r) by (field; lra). lra.
Qed.
Lemma trunc_ok K c s : Rabs s <= 1 -> Rabs (ev c s - ev (firstn K c) s) <= IZR (sabs (skipn K c)).
Proof.
  intros Hs. revert c. induction K as [|K IH]; intros c; cbn [firstn skipn].
  { cbn [ev]. rewrite Rminus_0_r. now apply ev_sabs. }
  destruct c as [|a c]; [cbn; rewrite Rminus_0_r, Rabs_R0; lra|]. cbn [ev].
  replace (IZR a + s * ev c s - (IZR a + s * ev (firstn K c) s)) with (s * (ev c s - ev (firstn K c) s)) by ring.
  rewrite Rabs_mult, <- (Rmult_1_l (IZR _)). apply Rmult_le_compat; auto using Rabs_pos.
Qed.
Definition tmul (U : Z) (K : nat) (x y : tm) : tm :=
  let p := rdiv U (pmul (fst x) (fst y)) in
  (firstn K p, (ceilq (sabs (fst x) * snd y + sabs (fst y) * snd x + snd x * snd y) U + Z.of_nat (length p) + sabs (skipn K p))%Z).
Lemma tmul_ok U K s x y v w : (0 < U)%Z -> Rabs s <= 1 -> ap U s x v -> ap U s y w -> ap U s (tmul U K x y) (v * w).
Proof.
  unfold ap, tmul. cbn [fst snd]. destruct x as [cx ex], y as [cy ey]. cbn [fst snd]. intros HU Hs A B.
  pose proof (trunc_ok K (rdiv U (pmul cx cy)) s Hs) as T.
  pose proof (rdiv_ok U (pmul cx cy) s HU Hs) as D. rewrite ev_pmul in D.
  assert (Len : length (rdiv U (pmul cx cy)) = length (pmul cx cy)) by (rewrite rdiv_eq; apply map_length). rewrite Len.
  pose proof (ceilq_ok (sabs cx * ey + sabs cy * ex + ex * ey) U HU) as C.
  pose proof (ev_sabs cx s Hs) as X. pose proof (ev_sabs cy s Hs) as Y.
  rewrite !plus_IZR, !mult_IZR in *. pose proof (IZR_lt _ _ HU) as RU.
  set (p := rdiv U (pmul cx cy)) in *. clearbody p. set (n := IZR (Z.of_nat (length (pmul cx cy)))) in *. clearbody n.
  set (a := ev cx s) in *. set (b := ev cy s) in *. set (u := IZR U) in *. set (bx := IZR (sabs cx)) in *. set (by' := IZR (sabs cy)) in *.
  set (E := IZR (ceilq (sabs cx * ey + sabs cy * ex + ex * ey) U)) in *. clearbody a b u bx by' E.
  set (da := u * v - a) in *. set (db := u * w - b) in *.
  replace (u * (v * w) - ev (firstn K p) s) with ((a * db + b * da + da * db) / u + (a * b / u - ev p s) + (ev p s - ev (firstn K p) s)).
  2: { unfold da, db. field. lra. }
  eapply Rle_trans; [apply Rabs_triang|]. apply Rplus_le_compat; [|exact T].
  eapply Rle_trans; [apply Rabs_triang|]. apply Rplus_le_compat; [|exact D].
  eapply Rle_trans; [|exact C]. unfold Rdiv. rewrite Rabs_mult, (Rabs_right (/ u)) by (apply Rle_ge, Rlt_le, Rinv_0_lt_compat; lra).
  apply Rmult_le_compat_r; [apply Rlt_le, Rinv_0_lt_compat; lra|].
  clearbody da db. eapply Rle_trans; [apply Rabs_triang|]. apply Rplus_le_compat.
  - eapply Rle_trans; [apply Rabs_triang|]. rewrite !Rabs_mult. apply Rplus_le_compat; apply Rmult_le_compat; auto using Rabs_pos.
  - rewrite Rabs_mult. apply Rmult_le_compat; auto using Rabs_pos.
Qed.
Fixpoint tpow (U : Z) (K : nat) (x : tm) (n : nat) : tm :=
  match n with O => ([U], 0%Z) | S n => tmul U K x (tpow U K x n) end.
Lemma tpow_ok U K s x v n : (0 < U)%Z -> Rabs s <= 1 -> ap U s x v -> ap U s (tpow U K x n) (v ^ n).
Proof.
  intros HU Hs A. induction n as [|n IH]; cbn [tpow pow]; [|now apply tmul_ok].
  unfold ap. cbn [fst snd ev]. replace (IZR U * 1 - (IZR U + s * 0)) with 0 by ring. rewrite Rabs_R0. lra.
Qed.
(* a table of rationals, highest order first *)
Definition thorner (U : Z) (K : nat) (c : list Q) (x : tm) : tm :=
  fold_left (fun p q => tadd (tmul U K p x) (tconst U q)) c ([], 0%Z).
Lemma thorner_ok U K s c x v : (0 < U)%Z -> Rabs s <= 1 -> ap U s x v -> ap U s (thorner U K c x) (hornerQ c v).
Proof.
  intros HU Hs A. unfold thorner, hornerQ.
  assert (G : forall p r, ap U s p r -> ap U s (fold_left (fun p q => tadd (tmul U K p x) (tconst U q)) c p) (fold_left (fun p q => p * v + Q2R q) c r)).
  { induction c as [|q c IH]; intros p r H; cbn [fold_left]; auto. apply IH. apply tadd_ok; [now apply tmul_ok|apply tconst_ok]. }
  apply G. unfold ap. cbn. rewrite Rmult_0_r, Rminus_0_r, Rabs_R0. lra.
Qed.
(* 0 < v and |v - w| < (e/N) w *)
Fixpoint palt (b : bool) (c : list Z) : list Z :=
  match c with [] => [] | a :: r => (if b then - a else a)%Z :: palt (negb b) r end.
Lemma ev_palt c : forall b t, ev (palt b c) t = (if b then -1 else 1) * ev c (- t).
Proof.
  induction c as [|a c IH]; intros b t; cbn [palt ev]; [ring|]. rewrite IH. destruct b; cbn [negb]; rewrite ?opp_IZR; ring.
Qed.
Definition tpos (fuel : nat) (x : tm) : bool :=
  let c := padd [(- snd x)%Z] (fst x) in wpos01 fuel (shrink c) && wpos01 fuel (shrink (palt false c)).
Lemma unit_pos fuel c s : wpos01 fuel (shrink c) && wpos01 fuel (shrink (palt false c)) = true -> Rabs s <= 1 -> 0 < ev c s.
Proof.
  intros H Hs. apply andb_true_iff in H. destruct H as [H1 H2]. unfold Rabs in Hs. destruct (Rcase_abs s).
  - apply (wpos01_ok _ _ (- s)) in H2; [|lra]. apply ev_shrink in H2; [|lra]. rewrite ev_palt, Ropp_involutive in H2. lra.
  - apply (wpos01_ok _ _ s) in H1; [|lra]. now apply ev_shrink in H1; [|lra].
Qed.
Lemma tpos_ok fuel U s x v : (0 < U)%Z -> Rabs s <= 1 -> tpos fuel x = true -> ap U s x v -> 0 < v.
Proof.
  intros HU Hs H A. pose proof (unit_pos _ _ s H Hs) as P. rewrite ev_padd in P. cbn [ev] in P. rewrite opp_IZR in P.
  apply IZR_lt in HU. unfold ap in A. pose proof (Rle_abs (- (IZR U * v - ev (fst x) s))) as X. rewrite Rabs_Ropp in X.
  apply Rmult_lt_reg_l with (IZR U); auto. lra.
Qed.
Definition tbetween (fuel : nat) (e N : Z) (x y : tm) : bool :=
  tpos fuel (tadd (tscale e y) (tscale N (tadd x (tscale (-1) y)))) && tpos fuel (tadd (tscale e y) (tscale N (tadd y (tscale (-1) x)))).
Lemma tbetween_ok fuel U e N s x y v w : (0 < U)%Z -> Rabs s <= 1 -> (0 < N)%Z -> (0 < e)%Z -> (101 * e <= N)%Z -> tbetween fuel e N x y = true ->
  ap U s x v -> ap U s y w -> lnear (101 / 100 * (IZR e / IZR N)) v w.
Proof.
  intros HU Hs HN He HE H A B. unfold tbetween in H. apply andb_true_iff in H. destruct H as [H1 H2].
  assert (P1 : 0 < IZR e * w + IZR N * (v + IZR (-1) * w)).
  { apply (tpos_ok _ _ s _ _ HU Hs H1). auto using tadd_ok, tscale_ok. }
  assert (P2 : 0 < IZR e * w + IZR N * (w + IZR (-1) * v)).
  { apply (tpos_ok _ _ s _ _ HU Hs H2). auto using tadd_ok, tscale_ok. }
  apply IZR_lt in HN. apply IZR_lt in He. apply IZR_le in HE. rewrite mult_IZR in HE.
  assert (W : 0 < w) by nra.
  apply lnear_of; auto.
  - apply Rabs_def1; apply Rmult_lt_reg_l with (IZR N); auto.
    + replace (IZR N * (IZR e / IZR N * w)) with (IZR e * w) by (field; lra). lra.
    + replace (IZR N * - (IZR e / IZR N * w)) with (- (IZR e * w)) by (field; lra). lra.
  - apply Rmult_le_reg_r with (IZR N * 101); [lra|]. replace (IZR e / IZR N * (IZR N * 101)) with (IZR e * 101) by (field; lra). lra.
Qed.
(* v <= q *)
Definition tle (fuel : nat) (U : Z) (x : tm) (q : Q) : bool := tpos fuel (tadd (tconst U q) (tscale (-1) x)).
Lemma tle_ok fuel U s x v q : (0 < U)%Z -> Rabs s <= 1 -> tle fuel U x q = true -> ap U s x v -> v <= Q2R q.
Proof.
  intros HU Hs H A. assert (P : 0 < Q2R q + IZR (-1) * v); [|lra].
  apply (tpos_ok _ _ s _ _ HU Hs H). auto using tadd_ok, tscale_ok, tconst_ok.
Qed.
(* the point of [-1,1] for a point of [a - b, a + b] *)
Lemma to_unit (a b : Q) x : 0 < Q2R b -> Q2R a - Q2R b <= x <= Q2R a + Q2R b -> exists s, Rabs s <= 1 /\ x = Q2R a + Q2R b * s.
Proof.
  intros Hb Hx. exists ((x - Q2R a) / Q2R b). split; [|field; lra].
  apply Rabs_le. split; apply Rmult_le_reg_r with (Q2R b); auto; replace ((x - Q2R a) / Q2R b * Q2R b) with (x - Q2R a) by (field; lra); lra.
Qed.

(* the value of an integer polynomial, lowest order first, over m *)
Fixpoint tev (U : Z) (K : nat) (m : positive) (c : list Z) (x : tm) : tm :=
  match c with [] => ([], 0%Z) | a :: r => tadd (tconst U (a # m)) (tmul U K x (tev U K m r x)) end.
Lemma tev_ok U K s m c x v : (0 < U)%Z -> Rabs s <= 1 -> ap U s x v -> ap U s (tev U K m c x) (ev c v / IZR (Zpos m)).
Proof.
  intros HU Hs A. induction c as [|a c IH]; cbn [tev ev].
  - unfold ap. cbn. unfold Rdiv. rewrite Rmult_0_l, Rmult_0_r, Rminus_0_r, Rabs_R0. lra.
  - replace ((IZR a + v * ev c v) / IZR (Zpos m)) with (Q2R (a # m) + v * (ev c v / IZR (Zpos m))).
    + apply tadd_ok; [apply tconst_ok|now apply tmul_ok].
    + unfold Q2R. cbn [Qnum Qden]. assert (0 < IZR (Zpos m)) by (apply IZR_lt; lia). field. lra.
Qed.
(* the reciprocal, from a candidate r *)
Definition tinv (U : Z) (K : nat) (r : list Z) (x : tm) : option tm :=
  let d := tadd ([U], 0%Z) (tscale (-1) (tmul U K (r, 0%Z) x)) in
  let b := (sabs (fst d) + snd d)%Z in
  if (2 * b <? U)%Z then Some (r, ceilq (2 * sabs r * b) U) else None.
Lemma tinv_ok U K s r x y v : (0 < U)%Z -> Rabs s <= 1 -> tinv U K r x = Some y -> ap U s x v -> v <> 0 -> ap U s y (/ v).
Proof.
  intros HU Hs H A Hv. unfold tinv in H. set (d := tadd ([U], 0%Z) (tscale (-1) (tmul U K (r, 0%Z) x))) in *.
  set (b := (sabs (fst d) + snd d)%Z) in *. destruct (Z.ltb_spec (2 * b) U) as [L|L]; [|discriminate]. assert (Ey : y = (r, ceilq (2 * sabs r * b) U)) by congruence. subst y. clear H.
  pose proof (IZR_lt _ _ HU) as RU.
  assert (R0 : ap U s (r, 0%Z) (ev r s / IZR U)).
  { unfold ap. cbn [fst snd]. replace (IZR U * (ev r s / IZR U) - ev r s) with 0 by (field; lra). rewrite Rabs_R0. lra. }
  assert (U1 : ap U s ([U], 0%Z) 1).
  { unfold ap. cbn [fst snd ev]. replace (IZR U * 1 - (IZR U + s * 0)) with 0 by ring. rewrite Rabs_R0. lra. }
  set (rho := ev r s / IZR U) in *.
  assert (D : ap U s d (1 + IZR (-1) * (rho * v))) by (apply tadd_ok; auto; apply tscale_ok; now apply tmul_ok).
  assert (B : Rabs (IZR U * (1 - rho * v)) <= IZR b).
  { unfold ap in D. unfold b. rewrite plus_IZR. pose proof (ev_sabs (fst d) s Hs) as E.
    replace (IZR U * (1 - rho * v)) with (ev (fst d) s + (IZR U * (1 + IZR (-1) * (rho * v)) - ev (fst d) s)) by ring.
    eapply Rle_trans; [apply Rabs_triang|]. lra. }
  clear D. apply IZR_lt in L. rewrite mult_IZR in L. clearbody b. clear d.
  rewrite Rabs_mult, (Rabs_right (IZR U)) in B by lra.
  unfold ap. cbn [fst snd]. eapply Rle_trans; [|apply ceilq_ok; auto]. rewrite !mult_IZR.
  pose proof (ev_sabs r s Hs) as E. replace (ev r s) with (IZR U * rho) in * by (unfold rho; field; lra).
  set (dl := 1 - rho * v) in *. assert (Hd : Rabs dl <= / 2).
  { apply Rmult_le_reg_l with (IZR U); auto. lra. }
  assert (Rv : Rabs (rho * v) >= / 2).
  { pose proof (Rabs_triang (rho * v) dl) as T. replace (rho * v + dl) with 1 in T by (unfold dl; ring). rewrite Rabs_R1 in T. lra. }
  rewrite Rabs_mult in Rv.
  assert (Vp : 0 < Rabs v) by now apply Rabs_pos_lt.
  assert (Iv : / Rabs v <= 2 * Rabs rho).
  { apply Rmult_le_reg_r with (Rabs v); auto. rewrite Rinv_l by lra. lra. }
  replace (IZR U * / v - IZR U * rho) with (IZR U * dl * / v) by (unfold dl; field; auto).
  rewrite !Rabs_mult, (Rabs_right (IZR U)), Rabs_inv by lra.
  rewrite Rabs_mult, (Rabs_right (IZR U)) in E by lra.
  apply Rle_trans with (IZR b * (2 * Rabs rho)).
  - apply Rmult_le_compat; auto. apply Rmult_le_pos; [lra|apply Rabs_pos]. apply Rlt_le, Rinv_0_lt_compat; auto.
  - apply Rmult_le_reg_r with (IZR U); auto. replace (2 * IZR (sabs r) * IZR b / IZR U * IZR U) with (2 * IZR b * IZR (sabs r)) by (field; lra).
    replace (IZR b * (2 * Rabs rho) * IZR U) with (2 * IZR b * (IZR U * Rabs rho)) by ring.
    apply Rmult_le_compat_l; auto. pose proof (Rabs_pos dl) as P. pose proof (Rmult_le_pos (IZR U) (Rabs dl) ltac:(lra) P). lra.
Qed.
