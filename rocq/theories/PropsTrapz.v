(* C14: cum(zcen(f)*diff(x)) (the recipe in the doc string of basic.cum) is the integral of the
   polyline through (x, f), as pline(x, f).integ(...) computes it. *)
From Coq Require Import String List Arith ZArith Lia Bool Reals Lra.
From Verif Require Import Num PyBase NdArray NdLemmas Poly SpecPoly PolyProofs PwPoly PwBase PwDeriv PwInteg PwIntegral PropsInteg PwCtor
  PropsCtor RSum SolvePer SolveProofs Gauss PropsSolve Spline SplineProofs SplineCore SplineSolve SplineFacts PropsSpline
  Basic BasicProofs PropsBasic PropsCat PropsElem.
Import ListNotations.
Local Open Scope R_scope.

(* an array whose last axis has n entries as the argument y of pline *)
Definition rows (sh : list nat) (n : nat) (f : nd R) : yarr R := YArr sh n (fun comp i => get f (comp ++ [i])).

Lemma upd_snoc {A} (l : list A) a v : upd (length l) v (l ++ [a]) = l ++ [v].
Proof. induction l; cbn; [reflexivity|]. f_equal. auto. Qed.
Lemma bget_last (a : nd R) n comp i : shp a = [n] -> (i < n)%nat -> bget a (comp ++ [i]) = get a [i].
Proof.
  intros E H. unfold bget, bidx. rewrite E, app_length. cbn [length].
  replace (length comp + 1 - 1)%nat with (length comp) by lia. rewrite skipn_app, skipn_all, Nat.sub_diag. cbn. destruct (Nat.eqb_spec n 1); [|reflexivity].
  assert (i = 0)%nat as -> by lia. reflexivity.
Qed.
(* an antiderivative of a polyline advances by the trapezoid on each segment *)
Lemma seg_trapezoid (F f : R -> R) (x : list R) (y : nat -> R) q : incr x -> (S q < length x)%nat ->
  (forall t, continuity_pt F t) ->
  (forall t, nth q x 0 < t < nth (S q) x 0 -> derivable_pt_lim F t (f t)) ->
  (forall t, nth q x 0 < t < nth (S q) x 0 -> f t = seg x y q t) ->
  F (nth (S q) x 0) - F (nth q x 0) = (y q + y (S q)) / 2 * (nth (S q) x 0 - nth q x 0).
Proof.
  intros Hi Hq HC HD HS. set (a := nth q x 0) in *. set (b := nth (S q) x 0) in *.
  assert (Hab : a < b) by (apply incr_lt; auto; lia).
  set (m := (y (S q) - y q) / (b - a)).
  set (G := minus_fct F (fun t => y q * (t - a) + m * (t - a) ^ 2 / 2)).
  assert (DP : forall t, derivable_pt_lim (fun t => y q * (t - a) + m * (t - a) ^ 2 / 2) t (y q + m * (t - a))).
  { intros t. replace (y q + m * (t - a)) with (y q * (1 - 0) + m * (INR 2 * (t - a) ^ 1 * (1 - 0)) / 2) by (cbn; field).
    apply (derivable_pt_lim_plus (fun t => y q * (t - a)) (fun t => m * (t - a) ^ 2 / 2)).
    - apply derivable_pt_lim_scal. apply (derivable_pt_lim_minus id (fun _ => a)); [apply derivable_pt_lim_id|apply derivable_pt_lim_const].
    - unfold Rdiv. apply dpl_ext with (f := mult_real_fct (m * / 2) (fun t => (t - a) ^ 2)); [intros u; unfold mult_real_fct; ring|].
      replace (m * (INR 2 * (t - a) ^ 1 * (1 - 0)) * / 2) with (m * / 2 * (INR 2 * (t - a) ^ 1 * (1 - 0))) by ring.
      apply derivable_pt_lim_scal. apply (derivable_pt_lim_comp (fun u => u - a) (fun u => u ^ 2)).
      + apply (derivable_pt_lim_minus id (fun _ => a)); [apply derivable_pt_lim_id|apply derivable_pt_lim_const].
      + apply (derivable_pt_lim_pow (t - a) 2). }
  assert (DG : forall t, a < t < b -> derivable_pt_lim G t 0).
  { intros t Ht. replace 0 with (f t - (y q + m * (t - a))).
    - apply derivable_pt_lim_minus; [apply HD; auto|apply DP].
    - rewrite HS by auto. unfold seg. fold a b. unfold m. ring. }
  set (pr := fun t Ht => exist _ 0 (DG t Ht) : derivable_pt G t).
  assert (K := null_derivative_loc G a b pr).
  assert (KC : forall t, a <= t <= b -> continuity_pt G t).
  { intros t _. apply continuity_pt_minus; [apply HC|]. apply derivable_continuous_pt. exists (y q + m * (t - a)). apply DP. }
  specialize (K KC (fun t P => eq_refl)). specialize (K b (conj (Rlt_le _ _ Hab) (Rle_refl b))).
  unfold G, minus_fct in K. replace (a - a) with 0 in K by ring.
  assert (M : m * (b - a) = y (S q) - y q) by (unfold m; field; lra).
  replace ((y q + y (S q)) / 2 * (b - a)) with (y q * (b - a) + m * (b - a) * (b - a) / 2) by (rewrite M; field).
  nra.
Qed.

Section Trapz.
  Variable inv : nat -> (nat -> nat -> R) -> (nat -> nat -> R).
  Variable sb : nat -> nat -> arr2 R -> arr2 R -> res (arr2 R).
  Variable s : arr2 R -> arr2 R -> res (arr2 R).
  Hypothesis Hinv : inv_spec inv.
  (* For every strictly increasing x of length at least 2 and every f whose last axis matches x:
     all five calls return, and entry i of cum(zcen(f)*diff(x)) is the value at x[i] of the
     antiderivative of pline(x, f) that vanishes at x[0], and the Riemann integral from x[0] to
     x[i] of the function pline(x, f). *)
  Theorem C14_trapezoid : forall (x : list R) (sh : list nat) (f : nd R), incr x -> (2 <= length x)%nat ->
    shp f = sh ++ [length x] -> size sh <> 0%nat ->
    exists z d zd c p P, zcen f (-1) = Ok z /\ nd_diff 0 (vec 0 x) = Ok d /\ nd_map2 nmul z d = Ok zd /\
      cum zd (Some (-1)%Z) = Ok c /\ shp c = shp f /\
      pline inv sb s x (rows sh (length x) f) ExNone false = Ok p /\ integ p 1 (full sh 0) (nth 0 x 0) = Ok P /\
      forall comp i, inb comp sh -> (i < length x)%nat ->
        pw_call P comp (nth i x 0) = Ok (get c (comp ++ [i])) /\
        exists g, (forall t, pw_call p comp t = Ok (g t)) /\
          exists pr : Riemann_integrable g (nth 0 x 0) (nth i x 0), RiemannInt pr = get c (comp ++ [i]).
  Proof using Hinv.
    intros x sh f Hi Hx Sf Hsz. set (n := length x) in *.
    assert (AX : axis_is (length (shp f)) (-1) (length sh)).
    { rewrite Sf, app_length. cbn. split; [lia|right; lia]. }
    assert (Nk : nth (length sh) (shp f) 0%nat = n) by (rewrite Sf, app_nth2, Nat.sub_diag by lia; reflexivity).
    destruct (C12_zcen f (-1) (length sh) n AX Nk) as [Z _]. destruct (Z Hx) as (z & Ez & Sz & Gz). clear Z.
    rewrite Sf, upd_snoc in Sz.
    destruct (nd_diff_ok (vec 0 x) 0 n) as (d & Ed & Sd & Gd); [cbn; lia|reflexivity|]. cbn [vec shp upd] in Sd.
    assert (BS : bshape (shp z) (shp d) = Some (sh ++ [n - 1]%nat)).
    { rewrite Sz, Sd. apply bshape_some_iff. split; [rewrite app_length; cbn; lia|]. intros m. unfold dimr.
      rewrite rev_app_distr. cbn [rev app]. destruct m as [|m]; cbn [nth]; [apply bdim_refl|].
      destruct m; rewrite bdim_comm; apply bdim_1_l. }
    exists z, d, (Nd (sh ++ [n - 1]%nat) (fun idx => bget z idx * bget d idx)).
    set (zd := Nd _ _).
    destruct (cum_ok zd (-1) (length sh) (n - 1)) as (c & Ec & Sc & Gc).
    { cbn [zd shp]. rewrite app_length. cbn. split; [lia|right; lia]. }
    { cbn [zd shp]. rewrite app_nth2, Nat.sub_diag by lia. reflexivity. }
    cbn [zd shp] in Sc. rewrite upd_snoc in Sc. replace (S (n - 1)) with n in Sc by lia.
    destruct (pline_result inv sb s Hinv x (rows sh n f) ExNone 0 0 Hi Hx eq_refl Hsz eq_refl) as (p & Ep & HR).
    pose proof HR as (W & PW & XK & PS & _). cbn [rows ysh] in PS.
    destruct (C34_integ p (full sh 0) (nth 0 x 0) W PW) as (P & EP & WP & _ & XP & _ & _ & HI & _); [symmetry; exact PS|].
    exists c, p, P. split; [exact Ez|]. split; [exact Ed|]. split; [unfold nd_map2; rewrite BS; reflexivity|].
    split; [exact Ec|]. split; [rewrite Sc; auto|]. split; [exact Ep|]. split; [exact EP|].
    intros comp i Hc Hin. assert (Hc' : inb comp (pshape p)) by (unfold pshape; rewrite PS; exact Hc).
    destruct (HI comp Hc') as (I1 & I2 & I3 & I4). rewrite XK in I2. cbn [full get] in I3.
    assert (LC : length comp = length sh) by (apply inb_length; auto).
    assert (HB : inb comp (ysh (rows sh n f))) by exact Hc.
    assert (ST : forall q, (S q < n)%nat -> pw_val P comp (nth (S q) x 0) - pw_val P comp (nth q x 0) =
       (get f (comp ++ [q]) + get f (comp ++ [S q])) / 2 * (nth (S q) x 0 - nth q x 0)).
    { intros q Hq. apply (seg_trapezoid (pw_val P comp) (pw_val p comp) x (fun j => get f (comp ++ [j])) q Hi Hq I1).
      - intros t Ht. apply I2. intros (j & Hj & E). destruct (Nat.le_gt_cases j q).
        + assert (nth j x 0 <= nth q x 0) by (apply incr_le; auto; lia). lra.
        + assert (nth (S q) x 0 <= nth j x 0) by (apply incr_le; auto; lia). lra.
      - intros t Ht. rewrite <- lcol_seg by auto.
        apply (sf_piece 1 x sh 0 0 (fun comp => lcol x (yval (rows sh n f) comp)) p comp (le_n 1) Hx HR Hc); [lia|lra]. }
    assert (CV : forall i, (i < n)%nat -> get c (comp ++ [i]) = pw_val P comp (nth i x 0)).
    { intros j. assert (GI := Gc (comp ++ [0%nat])). cbn [zd shp] in GI. rewrite !app_length, LC in GI. specialize (GI eq_refl).
      unfold at_k in GI. rewrite <- LC in GI. destruct GI as [G0 GS]. rewrite upd_snoc in G0.
      induction j as [|j IH]; intros Hj; [rewrite G0, I3; reflexivity|].
      specialize (ST j Hj). specialize (IH ltac:(lia)).
      assert (TM : get zd (comp ++ [j]) = (get f (comp ++ [j]) + get f (comp ++ [S j])) / 2 * (nth (S j) x 0 - nth j x 0)).
      { cbn [zd get]. f_equal.
        - rewrite bget_self. 2:{ rewrite Sz. apply Forall2_app; [exact Hc|]. constructor; [lia|constructor]. }
          assert (G := Gz (comp ++ [0%nat])). rewrite Sf in G. unfold at_k in G.
          assert (G' := fun H => G H j Hj). rewrite <- LC, !upd_snoc in G'. apply G'.
          apply Forall2_app; [exact Hc|]. constructor; [lia|constructor].
        - rewrite (bget_last d (n - 1)%nat) by (auto; lia). assert (G := Gd [0%nat]). unfold at_k in G. cbn [upd vec get hd shp] in G.
          apply G; auto. constructor; [lia|constructor]. }
      specialize (GS j). rewrite upd_snoc in GS. rewrite GS. clear GS.
      destruct j as [|j].
      - cbn [cums]. rewrite upd_snoc, TM. rewrite G0 in IH. rewrite <- IH in ST. lra.
      - cbn [cums]. numR. rewrite upd_snoc, TM.
        assert (E : cums (fun j0 : nat => get zd (upd (length comp) j0 (comp ++ [0%nat]))) j = get c (comp ++ [S j])).
        { specialize (Gc (comp ++ [0%nat])). cbn [zd shp] in Gc. rewrite !app_length, LC in Gc. destruct (Gc eq_refl) as [_ GS].
          unfold at_k in GS. rewrite <- LC in GS. rewrite <- GS, upd_snoc. reflexivity. }
        rewrite E, IH. lra. }
    rewrite CV by auto. split; [apply pw_call_wf; exact WP|].
    exists (pw_val p comp). split; [intros t; apply pw_call_wf; exact W|].
    destruct (I4 (nth 0 x 0) (nth i x 0)) as [pr E]. exists pr. rewrite E, I3. ring.
  Qed.
End Trapz.

(* the integral over [-1, 3] of the polyline of PropsSpline: 1 - 2 + 1 *)
Example C14_case : exists z d zd c,
  zcen (vec 0 [1; 1; -3; 5]) (-1) = Ok z /\ nd_diff 0 (vec 0 x4) = Ok d /\ nd_map2 nmul z d = Ok zd /\
  cum zd (Some (-1)%Z) = Ok c /\ shp c = [4%nat] /\ map (fun i => get c [i]) [0; 1; 2; 3]%nat = [0; 1; -1; 0].
Proof.
  do 4 eexists. split; [reflexivity|]. split; [reflexivity|]. split; [reflexivity|]. split; [reflexivity|].
  split; [reflexivity|]. cbn. repeat (f_equal; try lra).
Qed.
Example C14_case_hyps : incr x4 /\ (2 <= length x4)%nat /\ shp (vec 0 [1; 1; -3; 5]) = [] ++ [length x4] /\ size [] <> 0%nat /\ inv_spec inv_wit.
Proof. split; [exact x4_incr|]. repeat split; try (cbn; lia); apply inv_spec_nonvacuous; auto. Qed.

Print Assumptions C14_trapezoid.
