(* Certificates for the values of al and be: polynomials on the intervals [2m, 4m], and
   the asymptotic expansions beyond.  All checks are integer computations. *)
From Coq Require Import List Arith ZArith QArith Qreals Bool Lia Reals Lra.
From Coquelicot Require Import Coquelicot.
From Verif Require Import PolySign PolyDer GaussInt FermiInt FermiTail FermiOde.
Import ListNotations.
Open Scope R_scope.

Lemma pos01_abs fuel b r t : pos01 fuel (padd b r) = true -> pos01 fuel (padd b (pscale (-1) r)) = true ->
  0 <= t <= 1 -> Rabs (ev r t) <= ev b t.
Proof.
  intros H1 H2 Ht. pose proof (pos01_ok _ _ _ H1 Ht) as P1. pose proof (pos01_ok _ _ _ H2 Ht) as P2.
  rewrite ev_padd in P1, P2. rewrite ev_pscale in P2. apply Rabs_le. lra.
Qed.
Lemma ev_der_is c (t : R) : is_derive (ev c) t (ev (pder c) t).
Proof. apply is_derive_Reals, ev_pder. Qed.
Lemma ev_at0 c : ev c 0 = IZR (hd 0%Z c).
Proof. destruct c as [|a c]; cbn; [reflexivity|ring]. Qed.
Definition psum (c : list Z) : Z := fold_right Z.add 0%Z c.

(** ** Pieces *)
(* ev c (t/(2m) - 1) / d, with an error e/d *)
Definition entry : Type := Z * Z * list Z.
Definition pfun (d m : Z) (c : list Z) (t : R) : R := ev c (t / (2 * IZR m) - 1) / IZR d.
Definition pfun' (d m : Z) (c : list Z) (t : R) : R := ev (pder c) (t / (2 * IZR m) - 1) / (2 * IZR m) / IZR d.
Lemma pfun_der d m c (t : R) : is_derive (pfun d m c) t (pfun' d m c t).
Proof.
  apply (is_derive_ext (fun t => / IZR d * ev c (t / (2 * IZR m) - 1))); [intros; unfold pfun, Rdiv; apply Rmult_comm|].
  replace (pfun' d m c t) with (/ IZR d * (/ (2 * IZR m) * ev (pder c) (t / (2 * IZR m) - 1))) by (unfold pfun', Rdiv; ring).
  apply is_derive_scal.
  apply (is_derive_comp (ev c) (fun t => t / (2 * IZR m) - 1)); [apply ev_der_is|].
  auto_derive; [exact I|]. unfold Rdiv. ring.
Qed.
Definition okA (d : Z) (en : entry) : Prop :=
  let '(m, e, c) := en in (0 < m)%Z /\
  forall t, 2 * IZR m <= t <= 4 * IZR m -> Rabs (al t - pfun d m c t) <= IZR e / IZR d.
Definition okB (d : Z) (en : entry) : Prop :=
  let '(m, e, c) := en in (0 < m)%Z /\
  forall t, 2 * IZR m <= t <= 4 * IZR m -> Rabs (be t - pfun d m c t) <= IZR e / IZR d.

(* twice d times the residual *)
Definition resA (d m : Z) (c : list Z) : list Z :=
  padd (padd (pmul [2%Z; 2%Z] (pder c)) c) (padd [(2 * d)%Z] (pmul [(-4 * m)%Z; (-4 * m)%Z] c)).
Definition resB (d m : Z) (c : list Z) : list Z :=
  padd (padd (pmul [2%Z; 2%Z] (pder c)) c) (padd [(-2 * d)%Z] (pmul [(4 * m)%Z; (4 * m)%Z] c)).
Definition chkA (fuel : nat) (d : Z) (en : entry) : bool :=
  let '(m, e, c) := en in let r := resA d m c in let b := [(e * (4 * m - 1))%Z; (4 * m * e)%Z] in
  (0 <? m)%Z && (0 <? d)%Z && pos01 fuel (padd b r) && pos01 fuel (padd b (pscale (-1) r)).
Definition chkB (fuel : nat) (d : Z) (en : entry) : bool :=
  let '(m, e, c) := en in let r := resB d m c in let b := [(e * (4 * m + 1))%Z; (4 * m * e)%Z] in
  (0 <? m)%Z && (0 <? d)%Z && pos01 fuel (padd b r) && pos01 fuel (padd b (pscale (-1) r)).
Lemma chkA_ok fuel d m e c : chkA fuel d (m, e, c) = true ->
  Rabs (al (4 * IZR m) - IZR (psum c) / IZR d) <= IZR e / IZR d -> okA d (m, e, c).
Proof.
  unfold chkA. intros H E. apply andb_true_iff in H. destruct H as [H H4]. apply andb_true_iff in H. destruct H as [H H3].
  apply andb_true_iff in H. destruct H as [Hm Hd]. apply Z.ltb_lt in Hm, Hd. split; [exact Hm|].
  apply IZR_lt in Hm, Hd. 
  apply (al_cmp (pfun d m c) (pfun' d m c)); [lra|intros; apply pfun_der| |].
  - intros t Ht. set (s := t / (2 * IZR m) - 1).
    assert (Et : t = 2 * IZR m * (1 + s)) by (unfold s; field; lra).
    assert (Hs : 0 <= s <= 1) by (split; apply Rmult_le_reg_l with (2 * IZR m); lra).
    pose proof (pos01_abs fuel _ _ s H3 H4 Hs) as B. unfold resA in B.
    rewrite !ev_padd, !ev_pmul in B. cbn [ev] in B. rewrite !mult_IZR, minus_IZR, !mult_IZR in B.
    unfold pfun, pfun'. fold s. 
    replace (t * (ev (pder c) s / (2 * IZR m) / IZR d) + ev c s / IZR d / 2 + 1 - t * (ev c s / IZR d)) with
      (/ (2 * IZR d) * ((2 + s * (2 + s * 0)) * ev (pder c) s + ev c s + (2 * IZR d + s * 0 + (-4 * IZR m + s * (-4 * IZR m + s * 0)) * ev c s)))
      by (rewrite Et; field; lra).
    assert (0 < / (2 * IZR d)) by (apply Rinv_0_lt_compat; lra).
    rewrite Rabs_mult, Rabs_right by lra.
    apply Rle_trans with (/ (2 * IZR d) * (IZR e * (4 * IZR m - 1) + s * (4 * IZR m * IZR e + s * 0))); [apply Rmult_le_compat_l; [lra|exact B]|].
    right. rewrite Et. field. lra.
  - unfold pfun. replace (4 * IZR m / (2 * IZR m) - 1) with 1 by (field; lra). rewrite ev_1. exact E.
Qed.
Lemma chkB_ok fuel d m e c : chkB fuel d (m, e, c) = true ->
  Rabs (be (2 * IZR m) - IZR (hd 0%Z c) / IZR d) <= IZR e / IZR d -> okB d (m, e, c).
Proof.
  unfold chkB. intros H E. apply andb_true_iff in H. destruct H as [H H4]. apply andb_true_iff in H. destruct H as [H H3].
  apply andb_true_iff in H. destruct H as [Hm Hd]. apply Z.ltb_lt in Hm, Hd. split; [exact Hm|].
  apply IZR_lt in Hm, Hd. 
  apply (be_cmp (pfun d m c) (pfun' d m c)); [lra|intros; apply pfun_der| |].
  - intros t Ht. set (s := t / (2 * IZR m) - 1).
    assert (Et : t = 2 * IZR m * (1 + s)) by (unfold s; field; lra).
    assert (Hs : 0 <= s <= 1) by (split; apply Rmult_le_reg_l with (2 * IZR m); lra).
    pose proof (pos01_abs fuel _ _ s H3 H4 Hs) as B. unfold resB in B.
    rewrite !ev_padd, !ev_pmul in B. cbn [ev] in B. rewrite !mult_IZR, plus_IZR, !mult_IZR in B.
    unfold pfun, pfun'. fold s. 
    replace (t * (ev (pder c) s / (2 * IZR m) / IZR d) + ev c s / IZR d / 2 - 1 + t * (ev c s / IZR d)) with
      (/ (2 * IZR d) * ((2 + s * (2 + s * 0)) * ev (pder c) s + ev c s + (-2 * IZR d + s * 0 + (4 * IZR m + s * (4 * IZR m + s * 0)) * ev c s)))
      by (rewrite Et; field; lra).
    assert (0 < / (2 * IZR d)) by (apply Rinv_0_lt_compat; lra).
    rewrite Rabs_mult, Rabs_right by lra.
    apply Rle_trans with (/ (2 * IZR d) * (IZR e * (4 * IZR m + 1) + s * (4 * IZR m * IZR e + s * 0))); [apply Rmult_le_compat_l; [lra|exact B]|].
    right. rewrite Et. field. lra.
  - unfold pfun. replace (2 * IZR m / (2 * IZR m) - 1) with 0 by (field; lra). rewrite ev_at0. exact E.
Qed.

(** ** Asymptotic expansions *)
Lemma ev_abs c y y' : 0 <= y <= y' -> Rabs (ev c y) <= ev (map Z.abs c) y'.
Proof.
  intros Hy. induction c as [|a c IH]; cbn [ev map]; [rewrite Rabs_R0; lra|].
  eapply Rle_trans; [apply Rabs_triang|]. rewrite abs_IZR. apply Rplus_le_compat_l.
  rewrite Rabs_mult, (Rabs_right y) by lra. apply Rmult_le_compat; auto using Rabs_pos; lra.
Qed.
(* y ev q y / dq for y = 1/t *)
Definition afun (dq : Z) (q : list Z) (t : R) : R := / t * ev q (/ t) / IZR dq.
Definition afun' (dq : Z) (q : list Z) (t : R) : R := - (/ t * / t) * (ev q (/ t) + / t * ev (pder q) (/ t)) / IZR dq.
Lemma afun_der dq q (t : R) : t <> 0 -> is_derive (afun dq q) t (afun' dq q t).
Proof.
  intros Ht. assert (D : is_derive Rinv t (- (/ t * / t))).
  { auto_derive; [exact Ht|]. field. exact Ht. }
  unfold afun. apply (is_derive_ext (fun t => / IZR dq * (/ t * ev q (/ t)))); [intros; unfold Rdiv; apply Rmult_comm|].
  replace (afun' dq q t) with (scal (/ IZR dq) (- (/ t * / t) * ev q (/ t) + / t * (- (/ t * / t) * ev (pder q) (/ t))))
    by (unfold scal; cbn; unfold mult; cbn; unfold afun', Rdiv; ring).
  apply is_derive_scal.
  apply (is_derive_mult Rinv (fun t => ev q (/ t))); [exact D| |intros; apply Rmult_comm].
  apply (is_derive_comp (ev q) Rinv); [apply ev_der_is|exact D].
Qed.
Definition aresA (dq : Z) (q : list Z) : list Z :=
  padd (padd [(2 * dq)%Z] (pscale (-2) q)) (padd (0%Z :: pscale (-1) q) (0%Z :: 0%Z :: pscale (-2) (pder q))).
Definition aresB (dq : Z) (q : list Z) : list Z :=
  padd (padd [(-2 * dq)%Z] (pscale 2 q)) (padd (0%Z :: pscale (-1) q) (0%Z :: 0%Z :: pscale (-2) (pder q))).
(* the residual at y <= 1/T is at most (e/d) (T - 1/2) *)
Definition achk (d e T dq : Z) (r : list Z) (w : Z) : bool :=
  (0 <? d)%Z && (0 <? dq)%Z && (0 <? T)%Z && (0 <=? e)%Z && (evZ 1 T (map Z.abs r) * d <=? dq * e * w * T ^ Z.of_nat (length r))%Z.
Lemma achk_ok d e T dq r w y : achk d e T dq r w = true -> 0 <= y <= / IZR T ->
  0 < IZR d /\ 0 < IZR dq /\ 0 < IZR T /\ 0 <= IZR e /\ Rabs (ev r y / (2 * IZR dq)) <= IZR e / IZR d * (IZR w / 2).
Proof.
  unfold achk. intros H Hy. repeat (apply andb_true_iff in H; destruct H as [H ?]).
  apply Z.ltb_lt in H, H3, H2. apply Z.leb_le in H1, H0. assert (HT := H2). apply IZR_lt in H, H3, H2. apply IZR_le in H1, H0.
  repeat split; auto.
  rewrite !mult_IZR, evZ_ok, <- pow_IZR, map_length in H0 by exact HT. replace (1 / IZR T) with (/ IZR T) in H0 by (unfold Rdiv; ring).
  pose proof (ev_abs r y (/ IZR T) Hy) as B. set (v := ev (map Z.abs r) (/ IZR T)) in *. clearbody v.
  pose proof (pow_lt (IZR T) (length r) H2) as P. set (tp := IZR T ^ length r) in *. clearbody tp.
  assert (V : v * IZR d <= IZR dq * IZR e * IZR w) by (apply Rmult_le_reg_l with tp; auto; lra).
  unfold Rdiv. rewrite Rabs_mult, (Rabs_right (/ (2 * IZR dq))) by (apply Rle_ge, Rlt_le, Rinv_0_lt_compat; lra).
  apply Rle_trans with (v * / (2 * IZR dq)); [apply Rmult_le_compat_r; [apply Rlt_le, Rinv_0_lt_compat; lra|exact B]|].
  apply Rmult_le_reg_r with (2 * IZR dq * IZR d); [nra|].
  replace (v * / (2 * IZR dq) * (2 * IZR dq * IZR d)) with (v * IZR d) by (field; lra).
  replace (IZR e * / IZR d * (IZR w * / 2) * (2 * IZR dq * IZR d)) with (IZR dq * IZR e * IZR w) by (field; lra). exact V.
Qed.
Lemma inv_range T t : 0 < IZR T -> IZR T <= t -> 0 <= / t <= / IZR T.
Proof. intros H1 H2. split; [apply Rlt_le, Rinv_0_lt_compat; lra|]. apply Rinv_le_contravar; lra. Qed.
Lemma aresA_ok d e T dq q : achk d e T dq (aresA dq q) (2 * T - 1) = true -> forall t, IZR T <= t ->
  Rabs (al t - afun dq q t) <= IZR e / IZR d.
Proof.
  intros H. assert (F : 0 < IZR T).
  { unfold achk in H. repeat (apply andb_true_iff in H; destruct H as [H ?]). apply IZR_lt. now apply Z.ltb_lt. }
  apply (al_cmp_inf (afun dq q) (afun' dq q) (IZR T) (IZR e / IZR d) (/ IZR T * ev (map Z.abs q) (/ IZR T) / IZR dq)); [exact F| | |].
  - intros t Ht. apply afun_der. lra.
  - intros t Ht. pose proof (inv_range T t F Ht) as Y. destruct (achk_ok _ _ _ _ _ _ _ H Y) as (Hd & Hq & _).
    unfold afun, Rdiv. rewrite Rabs_mult, (Rabs_right (/ IZR dq)) by (apply Rle_ge, Rlt_le, Rinv_0_lt_compat; lra).
    apply Rmult_le_compat_r; [apply Rlt_le, Rinv_0_lt_compat; lra|]. rewrite Rabs_mult, Rabs_right by lra.
    apply Rmult_le_compat; auto using Rabs_pos; try lra. now apply ev_abs.
  - intros t Ht. pose proof (inv_range T t F Ht) as Y. destruct (achk_ok _ _ _ _ _ _ _ H Y) as (Hd & Hq & _ & He & B).
    unfold afun, afun'. assert (t <> 0) by lra.
    assert (Ty : t * / t = 1) by (field; auto). set (y := / t) in *. clearbody y.
    unfold aresA in B. rewrite !ev_padd in B. cbn [ev] in B. rewrite !ev_pscale, mult_IZR, minus_IZR, mult_IZR in B.
    replace (t * (- (y * y) * (ev q y + y * ev (pder q) y) / IZR dq) + y * ev q y / IZR dq / 2 + 1 - t * (y * ev q y / IZR dq)) with
      ((- (t * y * y) * (ev q y + y * ev (pder q) y) + y * ev q y / 2 + IZR dq - t * y * ev q y) / IZR dq) by (field; lra).
    rewrite Ty.
    match type of B with Rabs ?u <= _ => match goal with |- Rabs ?v <= _ => replace v with u by (field; lra) end end.
    eapply Rle_trans; [exact B|]. apply Rmult_le_compat_l; [|lra].
    apply Rmult_le_pos; [lra|apply Rlt_le, Rinv_0_lt_compat; lra].
Qed.
Lemma aresB_ok d e T dq q : achk d e T dq (aresB dq q) (2 * T + 1) = true ->
  Rabs (be (IZR T) - afun dq q (IZR T)) <= IZR e / IZR d -> forall t, IZR T <= t ->
  Rabs (be t - afun dq q t) <= IZR e / IZR d.
Proof.
  intros H E t0 Ht0. assert (F : 0 < IZR T).
  { unfold achk in H. repeat (apply andb_true_iff in H; destruct H as [H ?]). apply IZR_lt. now apply Z.ltb_lt. }
  apply (be_cmp (afun dq q) (afun' dq q) (IZR T) t0); [exact F| | |exact E|lra].
  - intros t Ht. apply afun_der. lra.
  - intros t [Ht _]. pose proof (inv_range T t F Ht) as Y. destruct (achk_ok _ _ _ _ _ _ _ H Y) as (Hd & Hq & _ & He & B).
    unfold afun, afun'. assert (t <> 0) by lra.
    assert (Ty : t * / t = 1) by (field; auto). set (y := / t) in *. clearbody y.
    unfold aresB in B. rewrite !ev_padd in B. cbn [ev] in B. rewrite !ev_pscale, mult_IZR, plus_IZR, mult_IZR in B.
    replace (t * (- (y * y) * (ev q y + y * ev (pder q) y) / IZR dq) + y * ev q y / IZR dq / 2 - 1 + t * (y * ev q y / IZR dq)) with
      ((- (t * y * y) * (ev q y + y * ev (pder q) y) + y * ev q y / 2 - IZR dq + t * y * ev q y) / IZR dq) by (field; lra).
    rewrite Ty.
    match type of B with Rabs ?u <= _ => match goal with |- Rabs ?v <= _ => replace v with u by (field; lra) end end.
    eapply Rle_trans; [exact B|]. apply Rmult_le_compat_l; [|lra].
    apply Rmult_le_pos; [lra|apply Rlt_le, Rinv_0_lt_compat; lra].
Qed.

(** ** Chains of pieces *)
Fixpoint find (m : Z) (l : list entry) : option (Z * list Z) :=
  match l with [] => None | (m', e, c) :: l' => if (m =? m')%Z then Some (e, c) else find m l' end.
Lemma find_in m e c l : find m l = Some (e, c) -> In (m, e, c) l.
Proof.
  induction l as [|[[m' e'] c'] l IH]; cbn [find]; [discriminate|].
  destruct (Z.eqb_spec m m') as [->|N]; [injection 1 as -> ->; now left|right; auto].
Qed.
(* al: descending m; the value at 4m is that at the left end of piece 2m, or the asymptotic one *)
Definition stepA (fuel : nat) (d ea Ta dq : Z) (q : list Z) (dn : list entry) (en : entry) : bool :=
  let '(m, e, c) := en in chkA fuel d en &&
  match find (2 * m) dn with
  | Some (e', c') => (Z.abs (hd 0 c' - psum c) + e' <=? e)%Z
  | None => let w := ((4 * m) ^ Z.of_nat (S (length q)) * dq)%Z in
      (Ta <=? 4 * m)%Z && (Z.abs (evZ 1 (4 * m) q * d - psum c * w) + ea * w <=? e * w)%Z
  end.
Lemma dist_tri a b c x y : Rabs (a - b) <= x -> Rabs (b - c) + x <= y -> Rabs (a - c) <= y.
Proof. intros H1 H2. replace (a - c) with ((a - b) + (b - c)) by ring. eapply Rle_trans; [apply Rabs_triang|]. lra. Qed.
Lemma stepA_ok fuel d ea Ta dq q dn en : achk d ea Ta dq (aresA dq q) (2 * Ta - 1) = true -> List.Forall (okA d) dn ->
  stepA fuel d ea Ta dq q dn en = true -> okA d en.
Proof.
  intros HA HF H. destruct en as [[m e] c]. unfold stepA in H. apply andb_true_iff in H. destruct H as [HC H].
  apply (chkA_ok fuel); [exact HC|]. unfold chkA in HC. repeat (apply andb_true_iff in HC; destruct HC as [HC ?]).
  apply Z.ltb_lt in HC, H2. assert (Hm := HC). apply IZR_lt in HC. assert (Hd := H2). apply IZR_lt in H2.
  assert (Id : 0 < / IZR d) by (now apply Rinv_0_lt_compat).
  destruct (find (2 * m) dn) as [[e' c']|] eqn:Ef.
  - apply find_in in Ef. rewrite List.Forall_forall in HF. specialize (HF _ Ef). cbn [okA okB] in HF. destruct HF as [_ HF].
    specialize (HF (4 * IZR m)). assert (T : 2 * IZR (2 * m) <= 4 * IZR m <= 4 * IZR (2 * m)) by (rewrite mult_IZR; lra). specialize (HF T). unfold pfun in HF.
    rewrite mult_IZR in HF. replace (4 * IZR m / (2 * (2 * IZR m)) - 1) with 0 in HF by (field; lra). rewrite ev_at0 in HF.
    eapply dist_tri; [exact HF|]. apply Z.leb_le, IZR_le in H. rewrite plus_IZR, abs_IZR, minus_IZR in H.
    unfold Rdiv. rewrite <- Rmult_minus_distr_r, Rabs_mult, (Rabs_right (/ IZR d)) by lra. nra.
  - apply andb_true_iff in H. destruct H as [H5 H]. apply Z.leb_le, IZR_le in H5. rewrite mult_IZR in H5.
    pose proof (aresA_ok d ea Ta dq q HA (4 * IZR m) H5) as B.
    assert (Y : 0 <= / (4 * IZR m) <= / IZR Ta).
    { apply inv_range; auto. unfold achk in HA. repeat (apply andb_true_iff in HA; destruct HA as [HA ?]). apply IZR_lt. now apply Z.ltb_lt. }
    destruct (achk_ok _ _ _ _ _ _ _ HA Y) as (_ & Hq & _).
    eapply dist_tri; [exact B|]. clear B. unfold afun. 
    apply Z.leb_le, IZR_le in H. rewrite plus_IZR, abs_IZR, minus_IZR, !mult_IZR, evZ_ok, <- pow_IZR, !mult_IZR in H by lia.
    replace (1 / (IZR 4 * IZR m)) with (/ (4 * IZR m)) in H by (unfold Rdiv; ring).
    change (IZR 4) with 4 in *. pose proof (pow_lt (4 * IZR m) (length q) ltac:(lra)) as P. cbn [pow] in H.
    set (p := (4 * IZR m) ^ length q) in *. clearbody p. set (v := ev q (/ (4 * IZR m))) in *. clearbody v.
    assert (W : 0 < 4 * IZR m * p * IZR dq * IZR d) by (repeat apply Rmult_lt_0_compat; lra).
    apply Rmult_le_reg_l with (4 * IZR m * p * IZR dq * IZR d); [exact W|].
    rewrite Rmult_plus_distr_l. rewrite <- (Rabs_right (4 * IZR m * p * IZR dq * IZR d)) at 1 by lra. rewrite <- Rabs_mult.
    replace (4 * IZR m * p * IZR dq * IZR d * (/ (4 * IZR m) * v / IZR dq - IZR (psum c) / IZR d)) with
      (p * v * IZR d - IZR (psum c) * (4 * IZR m * p * IZR dq)) by (field; lra).
    replace (4 * IZR m * p * IZR dq * IZR d * (IZR ea / IZR d)) with (IZR ea * (4 * IZR m * p * IZR dq)) by (field; lra).
    replace (4 * IZR m * p * IZR dq * IZR d * (IZR e / IZR d)) with (IZR e * (4 * IZR m * p * IZR dq)) by (field; lra). exact H.
Qed.
Fixpoint chainA (fuel : nat) (d ea Ta dq : Z) (q : list Z) (dn l : list entry) : bool :=
  match l with [] => true | en :: l' => stepA fuel d ea Ta dq q dn en && chainA fuel d ea Ta dq q (en :: dn) l' end.
Lemma chainA_ok fuel d ea Ta dq q l : achk d ea Ta dq (aresA dq q) (2 * Ta - 1) = true ->
  forall dn, List.Forall (okA d) dn -> chainA fuel d ea Ta dq q dn l = true -> List.Forall (okA d) l.
Proof.
  intros HA. induction l as [|en l IH]; intros dn HF H; [constructor|]. cbn [chainA] in H. apply andb_true_iff in H. destruct H as [H1 H2].
  assert (O : okA d en) by (eapply stepA_ok; eauto). constructor; [exact O|]. apply (IH (en :: dn)); [constructor; auto|exact H2].
Qed.

(* be: ascending m; the value at 2m is taken from piece m/2 or m - 1 *)
Definition stepB (fuel : nat) (d : Z) (v0 e0 : Z) (dn : list entry) (en : entry) : bool :=
  let '(m, e, c) := en in chkB fuel d en &&
  if (m =? 1)%Z then (Z.abs (v0 - hd 0 c) + e0 <=? e)%Z
  else let pm := if Z.even m then (m / 2)%Z else (m - 1)%Z in
    match find pm dn with
    | Some (e', c') => let w := (pm ^ Z.of_nat (length c'))%Z in
        (0 <? pm)%Z && (pm <=? m)%Z && (m <=? 2 * pm)%Z &&
        (Z.abs (evZ (m - pm) pm c' - hd 0 c * w) + e' * w <=? e * w)%Z
    | None => false
    end.
Lemma stepB_ok fuel d v0 e0 dn en : Rabs (be 2 - IZR v0 / IZR d) <= IZR e0 / IZR d -> List.Forall (okB d) dn ->
  stepB fuel d v0 e0 dn en = true -> okB d en.
Proof.
  intros H0 HF H. destruct en as [[m e] c]. unfold stepB in H. apply andb_true_iff in H. destruct H as [HC H].
  apply (chkB_ok fuel); [exact HC|]. unfold chkB in HC. repeat (apply andb_true_iff in HC; destruct HC as [HC ?]).
  apply Z.ltb_lt in HC, H3. apply IZR_lt in HC. apply IZR_lt in H3.
  assert (Id : 0 < / IZR d) by (now apply Rinv_0_lt_compat).
  destruct (Z.eqb_spec m 1) as [->|N].
  - replace (2 * 1) with 2 by ring. eapply dist_tri; [exact H0|]. apply Z.leb_le, IZR_le in H. rewrite plus_IZR, abs_IZR, minus_IZR in H.
    unfold Rdiv. rewrite <- Rmult_minus_distr_r, Rabs_mult, (Rabs_right (/ IZR d)) by lra. nra.
  - set (pm := if Z.even m then (m / 2)%Z else (m - 1)%Z) in *. clearbody pm.
    destruct (find pm dn) as [[e' c']|] eqn:Ef; [|discriminate].
    apply find_in in Ef. rewrite List.Forall_forall in HF. specialize (HF _ Ef). cbn [okA okB] in HF. destruct HF as [_ HF].
    repeat (apply andb_true_iff in H; destruct H as [H ?]). apply Z.ltb_lt in H. apply Z.leb_le in H4, H5, H6.
    assert (Hp := H). apply IZR_lt in H. apply IZR_le in H4, H5, H6. rewrite mult_IZR in H5.
    specialize (HF (2 * IZR m) ltac:(lra)). unfold pfun in HF.
    replace (2 * IZR m / (2 * IZR pm) - 1) with (IZR (m - pm) / IZR pm) in HF by (rewrite minus_IZR; field; lra).
    eapply dist_tri; [exact HF|]. rewrite plus_IZR, abs_IZR, minus_IZR, !mult_IZR, evZ_ok, <- pow_IZR in H4 by exact Hp.
    pose proof (pow_lt (IZR pm) (length c') H) as P. set (p := IZR pm ^ length c') in *. clearbody p.
    set (v := ev c' (IZR (m - pm) / IZR pm)) in *. clearbody v.
    replace (p * v - IZR (hd 0%Z c) * p) with (p * (v - IZR (hd 0%Z c))) in H4 by ring. rewrite Rabs_mult, (Rabs_right p) in H4 by lra.
    assert (X : Rabs (v - IZR (hd 0%Z c)) + IZR e' <= IZR e) by (apply Rmult_le_reg_l with p; lra).
    unfold Rdiv. rewrite <- Rmult_minus_distr_r, Rabs_mult, (Rabs_right (/ IZR d)) by lra. nra.
Qed.
Fixpoint chainB (fuel : nat) (d v0 e0 : Z) (dn l : list entry) : bool :=
  match l with [] => true | en :: l' => stepB fuel d v0 e0 dn en && chainB fuel d v0 e0 (en :: dn) l' end.
Lemma chainB_ok fuel d v0 e0 l : Rabs (be 2 - IZR v0 / IZR d) <= IZR e0 / IZR d ->
  forall dn, List.Forall (okB d) dn -> chainB fuel d v0 e0 dn l = true -> List.Forall (okB d) l.
Proof.
  intros HA. induction l as [|en l IH]; intros dn HF H; [constructor|]. cbn [chainB] in H. apply andb_true_iff in H. destruct H as [H1 H2].
  assert (O : okB d en) by (eapply stepB_ok; eauto). constructor; [exact O|]. apply (IH (en :: dn)); [constructor; auto|exact H2].
Qed.

(* the start of the chain: be 2 from a polynomial on [0,2] *)
Definition baseB (fuel : nat) (d e : Z) (c : list Z) : bool :=
  let r := padd (padd (0%Z :: pscale 2 (pder c)) c) (padd [(-2 * d)%Z] (0%Z :: pscale 2 c)) in
  (0 <? d)%Z && (0 <? e)%Z && (2 * e <=? d)%Z && (evZ 2 1 c <=? d)%Z &&
  pos_on fuel (padd [(2 * e)%Z] r) 0 2 && pos_on fuel (padd [(2 * e)%Z] (pscale (-1) r)) 0 2.
Lemma baseB_ok fuel d e c : baseB fuel d e c = true -> Rabs (be 2 - IZR (evZ 2 1 c) / IZR d) <= IZR (2 * e) / IZR d.
Proof.
  unfold baseB. intros H. repeat (apply andb_true_iff in H; destruct H as [H ?]).
  apply Z.ltb_lt, IZR_lt in H, H4. apply Z.leb_le, IZR_le in H3, H2. rewrite mult_IZR in *.
  assert (Id : 0 < / IZR d) by (now apply Rinv_0_lt_compat).
  pose proof (be_base (fun t => ev c t * / IZR d) (fun t => ev (pder c) t * / IZR d) 2 (IZR e / IZR d) ltac:(lra)) as B.
  rewrite evZ_ok by lia. rewrite pow1, Rmult_1_l. replace (2 / 1) with 2 by field.
  rewrite evZ_ok, pow1, Rmult_1_l in H2 by lia. replace (2 / 1) with 2 in H2 by field.
  assert (X : Rabs (be 2 - ev c 2 * / IZR d) <= IZR e / IZR d * be 2).
  { apply B; clear B.
    - intros t. apply (is_derive_ext (fun t => / IZR d * ev c t)); [intros; apply Rmult_comm|]. rewrite Rmult_comm.
      apply is_derive_scal, ev_der_is.
    - intros t Ht. assert (Q : Q2R 0 <= t <= Q2R 2) by (unfold Q2R; cbn; lra).
      pose proof (pos_on_ok _ _ _ _ _ H1 Q) as P1. pose proof (pos_on_ok _ _ _ _ _ H0 Q) as P2.
      rewrite !ev_padd in P1. rewrite ev_padd, ev_pscale, !ev_padd in P2. cbn [ev] in P1, P2. rewrite !ev_pscale, !mult_IZR in P1. rewrite !ev_pscale, !mult_IZR in P2.
      apply Rabs_le. unfold Rdiv. split; (apply Rmult_le_reg_r with (2 * IZR d); [lra|]).
      + replace (- (IZR e * / IZR d) * (2 * IZR d)) with (- (2 * IZR e)) by (field; lra).
        replace ((t * (ev (pder c) t * / IZR d) + ev c t * / IZR d * / 2 - 1 + t * (ev c t * / IZR d)) * (2 * IZR d)) with
          (2 * t * ev (pder c) t + ev c t - 2 * IZR d + 2 * t * ev c t) by (field; lra). lra.
      + replace (IZR e * / IZR d * (2 * IZR d)) with (2 * IZR e) by (field; lra).
        replace ((t * (ev (pder c) t * / IZR d) + ev c t * / IZR d * / 2 - 1 + t * (ev c t * / IZR d)) * (2 * IZR d)) with
          (2 * t * ev (pder c) t + ev c t - 2 * IZR d + 2 * t * ev c t) by (field; lra). lra. }
  unfold Rdiv at 1. eapply Rle_trans; [exact X|].
  apply Rabs_le_between in X. set (v := ev c 2) in *. clearbody v. set (b := be 2) in *. clearbody b.
  set (k := IZR e / IZR d) in *. assert (K : 0 < k <= 1 / 2).
  { unfold k. split; [now apply Rdiv_lt_0_compat|]. apply Rmult_le_reg_r with (IZR d); [exact H|]. unfold Rdiv. rewrite Rmult_assoc, Rinv_l by lra. lra. }
  assert (V : v * / IZR d <= 1). { apply Rmult_le_reg_r with (IZR d); [exact H|]. rewrite Rmult_assoc, Rinv_l by lra. lra. }
  replace (2 * IZR e / IZR d) with (k * 2) by (unfold k; field; lra). apply Rmult_le_compat_l; [lra|]. nra.
Qed.
(* the same with a coarser denominator *)
Lemma base_round d s v e b : (0 < d)%Z -> (0 < s)%Z -> Rabs (b - IZR v / IZR (d * s)) <= IZR e / IZR (d * s) ->
  Rabs (b - IZR (v / s) / IZR d) <= IZR (e / s + 2) / IZR d.
Proof.
  intros Hd Hs H. assert (D := IZR_lt _ _ Hd). assert (S := IZR_lt _ _ Hs). rewrite mult_IZR in H.
  assert (Q : forall v, IZR v = IZR s * IZR (v / s) + IZR (v mod s) /\ 0 <= IZR (v mod s) <= IZR s).
  { intros w. split; [rewrite <- mult_IZR, <- plus_IZR; f_equal; apply Z.div_mod; lia|].
    pose proof (Z.mod_pos_bound w s Hs). split; apply IZR_le; lia. }
  eapply dist_tri; [exact H|]. destruct (Q v) as [V1 V2]. destruct (Q e) as [E1 E2].
  replace (IZR v / (IZR d * IZR s) - IZR (v / s) / IZR d) with (IZR (v mod s) / (IZR d * IZR s)) by (rewrite V1; field; lra).
  assert (W : 0 < IZR d * IZR s) by (apply Rmult_lt_0_compat; lra).
  rewrite Rabs_right by (apply Rle_ge, Rmult_le_pos; [lra|apply Rlt_le, Rinv_0_lt_compat; lra]).
  apply Rmult_le_reg_l with (IZR d * IZR s); [exact W|]. rewrite plus_IZR.
  replace (IZR d * IZR s * (IZR (v mod s) / (IZR d * IZR s) + IZR e / (IZR d * IZR s))) with (IZR (v mod s) + IZR e) by (field; lra).
  replace (IZR d * IZR s * ((IZR (e / s) + 2) / IZR d)) with (IZR s * IZR (e / s) + 2 * IZR s) by (field; lra). lra.
Qed.
