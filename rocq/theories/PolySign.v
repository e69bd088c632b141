(* A verified check that a polynomial with rational coefficients is positive on an
   interval.  The interval is mapped to [0,1] and the coefficients to integers; the
   polynomial is positive on [0,1] if all partial sums of its coefficients, lowest
   order first, are positive; otherwise the interval is halved. *)
From Coq Require Import List Arith ZArith QArith Qreals Bool Lia Reals Lra.
Import ListNotations.
Open Scope R_scope.

(* value of a polynomial, coefficient of lowest order first *)
Fixpoint ev (c : list Z) (t : R) : R :=
  match c with [] => 0 | a :: r => IZR a + t * ev r t end.

Fixpoint presums (s : Z) (c : list Z) : bool :=
  match c with [] => true | a :: r => let s' := (s + a)%Z in (0 <? s')%Z && presums s' r end.
Definition sums_pos (c : list Z) : bool :=
  match c with [] => false | a :: r => (0 <? a)%Z && presums a r end.
Lemma presums_pos c : forall s t, (0 < s)%Z -> presums s c = true -> 0 <= t <= 1 -> 0 < IZR s + t * ev c t.
Proof.
  induction c as [|a r IH]; intros s t Hs H Ht; cbn [presums ev] in *.
  - apply IZR_lt in Hs. lra.
  - apply andb_true_iff in H. destruct H as [H1 H2]. apply Z.ltb_lt in H1.
    specialize (IH (s + a)%Z t H1 H2 Ht). rewrite plus_IZR in IH. apply IZR_lt in Hs.
    destruct (Req_dec t 1) as [->|N]; nra.
Qed.
Lemma sums_pos_ok c t : sums_pos c = true -> 0 <= t <= 1 -> 0 < ev c t.
Proof.
  destruct c as [|a r]; cbn [sums_pos ev]; [discriminate|]. intros H Ht. apply andb_true_iff in H.
  destruct H as [H1 H2]. apply Z.ltb_lt in H1. now apply presums_pos.
Qed.

(* sum, and product with u + v t *)
Fixpoint padd (p q : list Z) : list Z :=
  match p, q with
  | [], _ => q
  | _, [] => p
  | a :: p', b :: q' => (a + b)%Z :: padd p' q'
  end.
Lemma ev_padd p : forall q t, ev (padd p q) t = ev p t + ev q t.
Proof.
  induction p as [|a p IH]; intros [|b q] t; cbn [padd ev]; try ring.
  rewrite IH, plus_IZR. ring.
Qed.
Definition pscale (k : Z) (p : list Z) : list Z := map (Z.mul k) p.
Lemma ev_pscale k p t : ev (pscale k p) t = IZR k * ev p t.
Proof. induction p as [|a p IH]; cbn [pscale map ev]; [ring|]. fold (pscale k p). rewrite IH, mult_IZR. ring. Qed.
Fixpoint pmul (p q : list Z) : list Z :=
  match p with [] => [] | a :: p' => padd (pscale a q) (0%Z :: pmul p' q) end.
Lemma ev_pmul p q t : ev (pmul p q) t = ev p t * ev q t.
Proof.
  induction p as [|a p IH]; cbn [pmul ev]; [ring|]. rewrite ev_padd, ev_pscale. cbn [ev]. rewrite IH. ring.
Qed.

(* w^n p((u + v t) / w), n the number of coefficients *)
Fixpoint plin (u v w : Z) (c : list Z) : list Z :=
  match c with
  | [] => []
  | a :: r => let q := plin u v w r in
      padd [(w ^ Z.of_nat (S (length r)) * a)%Z] (padd (pscale u q) (0%Z :: pscale v q))
  end.
Lemma ev_plin u v w c t : (0 < w)%Z ->
  ev (plin u v w c) t = IZR w ^ length c * ev c ((IZR u + IZR v * t) / IZR w).
Proof.
  intros Hw. assert (Hw' : IZR w <> 0) by (apply IZR_lt in Hw; lra).
  induction c as [|a r IH]; [cbn; ring|]. cbn [plin length].
  rewrite !ev_padd, ev_pscale. cbn [ev]. rewrite ev_pscale, IH, mult_IZR, <- pow_IZR. cbn [pow]. field. exact Hw'.
Qed.
(* the halves of [0,1] *)
Fixpoint halve (c : list Z) : list Z :=
  match c with [] => [] | a :: r => (2 ^ Z.of_nat (length r) * a)%Z :: halve r end.
Lemma ev_halve c t : 2 * ev (halve c) t = 2 ^ length c * ev c (t / 2).
Proof.
  induction c as [|a r IH]; [cbn; ring|]. cbn [halve length ev pow]. rewrite mult_IZR, <- pow_IZR.
  replace (2 * (2 ^ length r * IZR a + t * ev (halve r) t)) with (2 * IZR a * 2 ^ length r + t * (2 * ev (halve r) t)) by ring.
  rewrite IH. field.
Qed.
Fixpoint shift1 (c : list Z) : list Z :=
  match c with [] => [] | a :: r => let q := shift1 r in padd [a] (padd q (0%Z :: q)) end.
Lemma ev_shift1 c t : ev (shift1 c) t = ev c (t + 1).
Proof. induction c as [|a r IH]; [reflexivity|]. cbn [shift1]. rewrite !ev_padd. cbn [ev]. rewrite IH. ring. Qed.
(* dropping s low bits gives a lower bound on [0,1], up to the factor 2^s *)
Definition drop (s : Z) (c : list Z) : list Z := map (fun a => Z.shiftr a s) c.
Lemma ev_drop s c t : (0 <= s)%Z -> 0 <= t -> IZR (2 ^ s) * ev (drop s c) t <= ev c t.
Proof.
  intros Hs Ht. induction c as [|a c IH]; cbn [drop map ev]; [lra|]. fold (drop s c).
  rewrite Z.shiftr_div_pow2 by auto. assert (P : (0 < 2 ^ s)%Z) by (apply Z.pow_pos_nonneg; lia).
  pose proof (Z.mul_div_le a (2 ^ s) P) as L. apply IZR_le in L. rewrite mult_IZR in L. nra.
Qed.
(* keep about p bits of the values at 0 and 1 *)
Definition shrink_to (p : Z) (c : list Z) : list Z :=
  match c with
  | [] => []
  | a :: _ =>
    let s := (Z.log2 (Z.min (Z.abs a) (Z.abs (fold_left Z.add c 0))) - p)%Z in
    if (0 <? s)%Z then drop s c else c
  end.
Definition shrink : list Z -> list Z := shrink_to 64.
Lemma ev_shrink_to p c t : 0 <= t -> 0 < ev (shrink_to p c) t -> 0 < ev c t.
Proof.
  intros Ht. unfold shrink_to. destruct c as [|a c]; auto.
  set (s := (Z.log2 (Z.min (Z.abs a) (Z.abs (fold_left Z.add (a :: c) 0))) - p)%Z).
  destruct (Z.ltb_spec 0 s) as [L|L]; auto. intros H.
  pose proof (ev_drop s (a :: c) t ltac:(lia) Ht) as D.
  assert (P : 0 < IZR (2 ^ s)) by (apply IZR_lt, Z.pow_pos_nonneg; lia). nra.
Qed.
Lemma ev_shrink c t : 0 <= t -> 0 < ev (shrink c) t -> 0 < ev c t.
Proof. apply ev_shrink_to. Qed.
Fixpoint pos01 (fuel : nat) (c : list Z) : bool :=
  if sums_pos c then true
  else match fuel with
       | O => false
       | S fuel' => let l := shrink (halve c) in pos01 fuel' l && pos01 fuel' (shrink (shift1 l))
       end.
Lemma pos01_ok fuel : forall c t, pos01 fuel c = true -> 0 <= t <= 1 -> 0 < ev c t.
Proof.
  induction fuel as [|fuel IH]; intros c t H Ht; cbn [pos01] in H;
  destruct (sums_pos c) eqn:S; try (now apply sums_pos_ok); try discriminate.
  apply andb_true_iff in H. destruct H as [H1 H2].
  pose proof (pow_lt 2 (length c) ltac:(lra)) as P.
  destruct (Rle_lt_dec t (1 / 2)) as [L|L].
  - specialize (IH _ (2 * t) H1 ltac:(lra)). apply ev_shrink in IH; [|lra]. pose proof (ev_halve c (2 * t)) as E.
    replace (2 * t / 2) with t in E by field. nra.
  - specialize (IH _ (2 * t - 1) H2 ltac:(lra)). apply ev_shrink in IH; [|lra]. rewrite ev_shift1 in IH. replace (2 * t - 1 + 1) with (2 * t) in IH by ring.
    apply ev_shrink in IH; [|lra].
    pose proof (ev_halve c (2 * t)) as E. replace (2 * t / 2) with t in E by field. nra.
Qed.

(* positive on [a,b] *)
Definition pos_on (fuel : nat) (c : list Z) (a b : Q) : bool :=
  let w := (Zpos (Qden a) * Zpos (Qden b))%Z in
  let u := (Qnum a * Zpos (Qden b))%Z in
  let v := (Qnum b * Zpos (Qden a) - Qnum a * Zpos (Qden b))%Z in
  let c := if (0 <=? u)%Z then shrink_to (64 + 3 * Z.of_nat (length c)) c else c in
  (0 <? v)%Z && pos01 fuel (shrink (plin u v w c)).
Lemma pos_on_ok fuel c a b z : pos_on fuel c a b = true -> Q2R a <= z <= Q2R b -> 0 < ev c z.
Proof.
  unfold pos_on. set (w := (Zpos (Qden a) * Zpos (Qden b))%Z).
  set (v := (Qnum b * Zpos (Qden a) - Qnum a * Zpos (Qden b))%Z). set (u := (Qnum a * Zpos (Qden b))%Z). cbv zeta.
  set (c' := if (0 <=? u)%Z then shrink_to (64 + 3 * Z.of_nat (length c)) c else c). intros H Hz. apply andb_true_iff in H.
  destruct H as [Hv H]. apply Z.ltb_lt in Hv. assert (Hw : (0 < w)%Z) by (unfold w; lia).
  pose proof (IZR_lt _ _ Hv) as Rv. pose proof (IZR_lt _ _ Hw) as Rw.
  assert (Da : 0 < IZR (Zpos (Qden a))) by (apply IZR_lt; lia).
  assert (Db : 0 < IZR (Zpos (Qden b))) by (apply IZR_lt; lia).
  assert (Ew : IZR w = IZR (Zpos (Qden a)) * IZR (Zpos (Qden b))) by (unfold w; apply mult_IZR).
  assert (Ea : Q2R a * IZR w = IZR u) by (rewrite Ew; unfold Q2R, u; rewrite mult_IZR; field; lra).
  assert (Eb : Q2R b * IZR w = IZR u + IZR v).
  { rewrite Ew. unfold Q2R, u, v. rewrite minus_IZR, !mult_IZR. field. lra. }
  assert (Za : Q2R a * IZR w <= z * IZR w) by (apply Rmult_le_compat_r; lra).
  assert (Zb : z * IZR w <= Q2R b * IZR w) by (apply Rmult_le_compat_r; lra).
  set (t := (z * IZR w - IZR u) / IZR v).
  assert (Ht : 0 <= t <= 1).
  { unfold t. split.
    - apply Rmult_le_pos; [lra|]. apply Rlt_le, Rinv_0_lt_compat; lra.
    - apply Rmult_le_reg_r with (IZR v); auto. unfold Rdiv. rewrite Rmult_assoc, (Rinv_l (IZR v)) by lra. lra. }
  pose proof (pos01_ok _ _ _ H Ht) as P. apply ev_shrink in P; [|lra]. rewrite ev_plin in P by auto.
  replace ((IZR u + IZR v * t) / IZR w) with z in P by (unfold t; field; lra).
  assert (P' : 0 < ev c' z) by (pose proof (pow_lt (IZR w) (length c') Rw); nra).
  unfold c' in P'. destruct (Z.leb_spec 0 u) as [U|U]; auto. apply IZR_le in U.
  apply ev_shrink_to in P'; auto. apply Rmult_le_reg_r with (IZR w); lra.
Qed.

(* tables of rationals, highest order first: common denominator D *)
Definition common (c : list Q) : Z := Zpos (fold_left (fun d q => Pos.max d (Qden q)) c 1%positive).
Definition intable (c : list Q) : list Z :=
  let D := common c in rev (map (fun q => Qnum q * (D / Zpos (Qden q)))%Z c).
Definition intable_ok (c : list Q) : bool :=
  let D := common c in forallb (fun q => (D / Zpos (Qden q) * Zpos (Qden q) =? D)%Z) c.
Definition hornerQ (c : list Q) (z : R) : R := fold_left (fun p q => p * z + Q2R q) c 0.
Lemma intable_ev c z : intable_ok c = true -> ev (intable c) z = IZR (common c) * hornerQ c z.
Proof.
  unfold intable_ok, intable, hornerQ. set (D := common c).
  assert (HD : (0 < D)%Z) by (unfold D, common; lia). clearbody D. intros H. rewrite forallb_forall in H.
  rewrite <- (fold_left_rev_right (fun q p => p * z + Q2R q)), <- map_rev.
  assert (H' : forall q, In q (rev c) -> (D / Zpos (Qden q) * Zpos (Qden q) =? D)%Z = true)
    by (intros q Hq; apply H; now apply in_rev).
  clear H. induction (rev c) as [|q r IH]; [cbn; ring|]. cbn [map ev fold_right]. rewrite IH by (intros; apply H'; now right).
  specialize (H' q (or_introl eq_refl)). apply Z.eqb_eq in H'.
  assert (E : IZR D = IZR (D / Zpos (Qden q)) * IZR (Zpos (Qden q))) by (rewrite <- mult_IZR; now rewrite H').
  rewrite mult_IZR. unfold Q2R. assert (0 < IZR (Zpos (Qden q))) by (apply IZR_lt; lia).
  assert (E' : IZR D * / IZR (Zpos (Qden q)) = IZR (D / Zpos (Qden q))) by (rewrite E; field; lra).
  rewrite <- E'. ring.
Qed.
(* the sign of a table on [a,b] *)
Definition chk (pos : bool) (fuel : nat) (c : list Q) (a b : Q) : bool :=
  intable_ok c && pos_on fuel (if pos then intable c else pscale (-1) (intable c)) a b.
Lemma chk_ok pos fuel c a b z : chk pos fuel c a b = true -> Q2R a <= z <= Q2R b ->
  if pos then 0 < hornerQ c z else hornerQ c z < 0.
Proof.
  unfold chk. intros H Hz. apply andb_true_iff in H. destruct H as [H1 H2].
  pose proof (pos_on_ok _ _ _ _ _ H2 Hz) as P.
  assert (D : 0 < IZR (common c)) by (apply IZR_lt; unfold common; lia).
  destruct pos.
  - rewrite intable_ev in P by auto. nra.
  - rewrite ev_pscale, intable_ev in P by auto. nra.
Qed.

(* x (x - 1)^2 + 1/100 is positive on [0, 2]; x - 1 is not *)
Example ex_pos : pos_on 12 [1; 100; -200; 100]%Z 0 2 = true /\ pos_on 12 [-1; 1]%Z 0 2 = false.
Proof. split; vm_compute; reflexivity. Qed.
