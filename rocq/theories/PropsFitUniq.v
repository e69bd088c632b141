(* The fits (npplus/pwpoly.py:1051-1375, npplus/lsqfit.py:37-104) are determined by their data: uniqueness of the optimum and its consequences. *)
From Coq Require Import List Arith ZArith Lia Bool Reals Lra Permutation.
From Verif Require Import Num PyBase NdArray NdLemmas LsqModel PropsRegress Poly SpecPoly PolyProofs PwPoly PwBase PwDeriv PwCtor PropsCtor RSum SolvePer SolveProofs Gauss PropsSolve Spline
  SplineProofs SplineCore SplineSolve SplineFacts PropsSpline RunTests PropsSplineUniq PropsSplineLin Fit RunFit FitProofs FitSetup PropsFit SplfitMat SplfitProofs SplfitSolve
  SplfitRow PropsSplfit.
Import ListNotations.
Local Open Scope R_scope.

(** ** least squares over a linear family of functions *)
Lemma z11 x : 1 * x + -1 * x = 0.
Proof. ring. Qed.
Section Abs.
  (* adm l h F: F is admissible with end values l and h *)
  Variables (nlo nhi N : nat) (X : nat -> R) (dom : R -> Prop) (adm : (nat -> R) -> (nat -> R) -> (R -> R) -> Prop).
  Hypothesis Hcomb : forall a b l h F l' h' F', adm l h F -> adm l' h' F' ->
    adm (fun m => a * l m + b * l' m) (fun m => a * h m + b * h' m) (fun t => a * F t + b * F' t).
  Hypothesis Hext : forall l h F l' h', (forall m, (m < nlo)%nat -> l m = l' m) -> (forall m, (m < nhi)%nat -> h m = h' m) -> adm l h F -> adm l' h' F.
  Hypothesis Hdet : forall l h F, (forall m, (m < nlo)%nat -> l m = 0) -> (forall m, (m < nhi)%nat -> h m = 0) -> adm l h F ->
    (forall t, (t < N)%nat -> F (X t) = 0) -> forall t, dom t -> F t = 0.
  Definition best (l h Y S : nat -> R) (F : R -> R) : Prop := adm l h F /\ forall G, adm l h G -> chi2 N X Y S F <= chi2 N X Y S G.
  Lemma chi2_line Y S F H a : (forall t, (t < N)%nat -> S t <> 0) ->
    chi2 N X Y S (fun t => 1 * F t + a * H t) = chi2 N X Y S F + a * (2 * rsum N (fun t => (F (X t) - Y t) * H (X t) / (S t * S t))) + a * a * rsum N (fun t => (H (X t) / S t) ^ 2).
  Proof using.
    intros HS. unfold chi2. rewrite <- !rsum_scal, <- !rsum_plus. apply rsum_ext. intros t Ht. specialize (HS t Ht). field. exact HS.
  Qed.
  Lemma best_orth l h Y S F l0 h0 H : (forall t, (t < N)%nat -> S t <> 0) -> best l h Y S F -> adm l0 h0 H ->
    (forall m, (m < nlo)%nat -> l0 m = 0) -> (forall m, (m < nhi)%nat -> h0 m = 0) -> rsum N (fun t => (F (X t) - Y t) * H (X t) / (S t * S t)) = 0.
  Proof using Hcomb Hext.
    intros HS [AF MF] AH Z1 Z2. set (B := rsum N (fun t => (F (X t) - Y t) * H (X t) / (S t * S t))). set (C := rsum N (fun t => (H (X t) / S t) ^ 2)).
    assert (HC : 0 <= C) by (apply rsum_nonneg; intros; apply pow2_ge_0).
    assert (G : forall a, 0 <= a * (2 * B) + a * a * C).
    { intros a. assert (A : adm l h (fun t => 1 * F t + a * H t)).
      { apply (Hext (fun m => 1 * l m + a * l0 m) (fun m => 1 * h m + a * h0 m)); [intros m Hm; rewrite Z1 by auto; ring|intros m Hm; rewrite Z2 by auto; ring|]. apply Hcomb; auto. }
      pose proof (MF _ A) as M. rewrite chi2_line in M by auto. fold B C in M. lra. }
    destruct (Req_dec B 0) as [E|E]; [exact E|]. exfalso.
    destruct (Req_dec C 0) as [E0|E0].
    - specialize (G (- B)). rewrite E0 in G. assert (0 < B * B) by nra. lra.
    - specialize (G (- B / C)). replace (- B / C * (2 * B) + - B / C * (- B / C) * C) with (- (B * B / C)) in G by (field; auto).
      assert (0 < B * B / C) by (apply Rdiv_lt_0_compat; nra). lra.
  Qed.
  Lemma orth_best l h Y S F : (forall t, (t < N)%nat -> S t <> 0) -> adm l h F ->
    (forall l0 h0 H, adm l0 h0 H -> (forall m, (m < nlo)%nat -> l0 m = 0) -> (forall m, (m < nhi)%nat -> h0 m = 0) -> rsum N (fun t => (F (X t) - Y t) * H (X t) / (S t * S t)) = 0) ->
    best l h Y S F.
  Proof using Hcomb.
    intros HS AF O. split; [exact AF|]. intros G AG. pose proof (Hcomb 1 (-1) l h G l h F AG AF) as AD. cbv beta in AD.
    pose proof (O _ _ _ AD (fun m _ => z11 (l m)) (fun m _ => z11 (h m))) as B. cbv beta in B.
    pose proof (chi2_line Y S F (fun t => 1 * G t + -1 * F t) 1 HS) as E. cbv beta in E. rewrite B in E.
    assert (E' : chi2 N X Y S (fun t => 1 * F t + 1 * (1 * G t + -1 * F t)) = chi2 N X Y S G) by (unfold chi2; apply rsum_ext; intros t _; f_equal; f_equal; ring).
    rewrite E' in E. rewrite E. assert (0 <= rsum N (fun t => ((1 * G (X t) + -1 * F (X t)) / S t) ^ 2)) by (apply rsum_nonneg; intros; apply pow2_ge_0). lra.
  Qed.
  Lemma best_unique l h Y S F G : (forall t, (t < N)%nat -> S t <> 0) -> best l h Y S F -> adm l h G -> chi2 N X Y S G <= chi2 N X Y S F ->
    forall t, dom t -> F t = G t.
  Proof using Hcomb Hext Hdet.
    intros HS BF AG L t Ht. pose proof (Hcomb 1 (-1) l h G l h F AG (proj1 BF)) as AD. cbv beta in AD.
    pose proof (best_orth l h Y S F _ _ _ HS BF AD (fun m _ => z11 (l m)) (fun m _ => z11 (h m))) as B. cbv beta in B.
    pose proof (chi2_line Y S F (fun t => 1 * G t + -1 * F t) 1 HS) as E. cbv beta in E. rewrite B in E.
    assert (E' : chi2 N X Y S (fun t => 1 * F t + 1 * (1 * G t + -1 * F t)) = chi2 N X Y S G) by (unfold chi2; apply rsum_ext; intros u _; f_equal; f_equal; ring).
    rewrite E' in E. set (s2 := fun t => ((1 * G (X t) + -1 * F (X t)) / S t) ^ 2) in E.
    assert (P : forall u, (u < N)%nat -> 0 <= s2 u) by (intros; apply pow2_ge_0). pose proof (rsum_nonneg N s2 P) as P0.
    assert (Z : rsum N s2 = 0) by lra. pose proof (rsum_nonneg_0 N s2 P Z) as Z'.
    pose proof (Hdet _ _ _ (fun m _ => z11 (l m)) (fun m _ => z11 (h m)) AD) as D. cbv beta in D.
    assert (1 * G t + -1 * F t = 0); [|lra]. apply D; auto. intros u Hu. specialize (Z' u Hu). unfold s2 in Z'. specialize (HS u Hu).
    apply Rsqr_0_uniq. replace (1 * G (X u) + -1 * F (X u)) with ((1 * G (X u) + -1 * F (X u)) / S u * S u) by (field; auto).
    rewrite Rsqr_mult. unfold Rsqr at 1. rewrite <- (Rmult_0_l (Rsqr (S u))). f_equal. rewrite <- Z'. ring.
  Qed.
  Lemma best_linear a b l1 h1 Y1 F1 l2 h2 Y2 F2 l3 h3 Y3 F3 S : (forall t, (t < N)%nat -> S t <> 0) ->
    best l1 h1 Y1 S F1 -> best l2 h2 Y2 S F2 -> best l3 h3 Y3 S F3 ->
    (forall m, (m < nlo)%nat -> l3 m = a * l1 m + b * l2 m) -> (forall m, (m < nhi)%nat -> h3 m = a * h1 m + b * h2 m) ->
    (forall t, (t < N)%nat -> Y3 t = a * Y1 t + b * Y2 t) -> forall t, dom t -> F3 t = a * F1 t + b * F2 t.
  Proof using Hcomb Hext Hdet.
    intros HS B1 B2 B3 EL EH EY t Ht.
    assert (A : adm l3 h3 (fun t => a * F1 t + b * F2 t)).
    { apply (Hext (fun m => a * l1 m + b * l2 m) (fun m => a * h1 m + b * h2 m)); [intros; rewrite EL; auto|intros; rewrite EH; auto|]. apply Hcomb; [apply B1|apply B2]. }
    assert (BB : best l3 h3 Y3 S (fun t => a * F1 t + b * F2 t)).
    { apply orth_best; auto. intros l0 h0 H AH Z1 Z2.
      transitivity (a * rsum N (fun t => (F1 (X t) - Y1 t) * H (X t) / (S t * S t)) + b * rsum N (fun t => (F2 (X t) - Y2 t) * H (X t) / (S t * S t))).
      - rewrite <- !rsum_scal, <- rsum_plus. apply rsum_ext. intros u Hu. rewrite EY by auto. specialize (HS u Hu). field. auto.
      - rewrite (best_orth l1 h1 Y1 S F1 l0 h0 H), (best_orth l2 h2 Y2 S F2 l0 h0 H) by auto. ring. }
    symmetry. apply (best_unique l3 h3 Y3 S (fun t => a * F1 t + b * F2 t) F3 HS BB (proj1 B3)); [apply B3, A|auto].
  Qed.
End Abs.
(* the sum of squares does not depend on the order of the points; a common factor of the errors only scales it *)
Definition triples (N : nat) (X Y S : nat -> R) : list (R * R * R) := map (fun t => (X t, Y t, S t)) (seq 0 N).
Lemma rsum_list (l : list (R * R * R)) (f : R * R * R -> R) : fold_right Rplus 0 (map f l) = rsum (length l) (fun i => f (nth i l (0, 0, 0))).
Proof. induction l as [|a l IH]; [reflexivity|]. cbn [map fold_right length]. rewrite rsum_S_l. cbn [nth]. rewrite IH. reflexivity. Qed.
Lemma sum_permut (l l' : list R) : Permutation l l' -> fold_right Rplus 0 l = fold_right Rplus 0 l'.
Proof. induction 1; cbn; lra. Qed.
Lemma chi2_triples N X Y S F : chi2 N X Y S F = fold_right Rplus 0 (map (fun p => ((F (fst (fst p)) - snd (fst p)) / snd p) ^ 2) (triples N X Y S)).
Proof.
  rewrite rsum_list. unfold triples at 1. rewrite map_length, seq_length. unfold chi2. apply rsum_ext. intros t Ht.
  unfold triples. rewrite (nth_indep _ (0, 0, 0) ((fun t => (X t, Y t, S t)) 0%nat)) by (rewrite map_length, seq_length; auto).
  rewrite (map_nth (fun t => (X t, Y t, S t))), seq_nth by auto. reflexivity.
Qed.
Lemma chi2_perm k N X Y S N' X' Y' S' F : k <> 0 -> (forall t, (t < N')%nat -> S' t <> 0) -> Permutation (triples N X Y S) (triples N' X' Y' (fun t => k * S' t)) ->
  chi2 N' X' Y' S' F = k * k * chi2 N X Y S F.
Proof.
  intros Hk HS P. rewrite (chi2_triples N), (sum_permut _ _ (Permutation_map _ P)), <- chi2_triples. unfold chi2. rewrite <- rsum_scal.
  apply rsum_ext. intros t Ht. specialize (HS t Ht). field. auto.
Qed.

(** ** the families of the fits *)
Definition in_knots (K : list R) (t : R) : Prop := nth 0 K 0 <= t <= nth (length K - 1) K 0.
Lemma knot_cover K t : (2 <= length K)%nat -> incr K -> in_knots K t -> exists q, (S q < length K)%nat /\ nth q K 0 <= t <= nth (S q) K 0.
Proof.
  intros HK Hi [H1 H2]. destruct (Rle_lt_or_eq_dec _ _ H1) as [H|<-].
  - destruct (cover K t (conj H H2)) as (q & Hq & Ht). exists q. split; [auto|lra].
  - exists 0%nat. split; [lia|]. pose proof (Hi 0%nat ltac:(lia)). lra.
Qed.
Definition spl_fam (n nc nlo nhi : nat) (K : list R) (l h : nat -> R) (F : R -> R) : Prop :=
  exists Q, spline_on n nc K Q F /\ taylor_is nlo (Q 0%nat) 0 l /\ taylor_is nhi (Q (length K - 2)%nat) (nth (length K - 1) K 0 - nth (length K - 2) K 0) h.
Definition per_fam (n nc : nat) (K : list R) (l h : nat -> R) (F : R -> R) : Prop := exists Q, spline_per n nc K Q F.
Lemma pieces_lcomb n K a b Q F Q' F' : pieces_on n K Q F -> pieces_on n K Q' F' -> pieces_on n K (fun q => lcomb a b (Q q) (Q' q)) (fun t => a * F t + b * F' t).
Proof.
  intros H H' q Hq. destruct (H q Hq) as [L E]. destruct (H' q Hq) as [L' E']. split; [rewrite lcomb_len; lia|]. intros t Ht. rewrite E, E' by auto.
  rewrite <- !tay_0, lcomb_tay by lia. reflexivity.
Qed.
Lemma joined_lcomb m a b c t d c' d' : length c = length c' -> length d = length d' -> joined m c t d 0 -> joined m c' t d' 0 -> joined m (lcomb a b c c') t (lcomb a b d d') 0.
Proof.
  intros L L' H H'. rewrite joined_tay in *. intros k Hk. rewrite <- tay_at_0, !lcomb_tay by auto. rewrite !tay_at_0, H, H' by auto. reflexivity.
Qed.
Lemma spline_lcomb n nc K a b Q F Q' F' : spline_on n nc K Q F -> spline_on n nc K Q' F' -> spline_on n nc K (fun q => lcomb a b (Q q) (Q' q)) (fun t => a * F t + b * F' t).
Proof.
  intros [P J] [P' J']. split; [apply pieces_lcomb; auto|]. intros q Hq. apply joined_lcomb; auto; destruct (P q ltac:(lia)), (P' q ltac:(lia)), (P (S q) ltac:(lia)), (P' (S q) ltac:(lia)); congruence.
Qed.
Lemma taylor_lcomb nb a b c c' t l l' : length c = length c' -> taylor_is nb c t l -> taylor_is nb c' t l' -> taylor_is nb (lcomb a b c c') t (fun m => a * l m + b * l' m).
Proof. intros L H H'. rewrite taylor_is_tay in *. intros m Hm. rewrite lcomb_tay, H, H' by auto. reflexivity. Qed.
Lemma spl_comb n nc nlo nhi K : (2 <= length K)%nat -> forall a b l h F l' h' F', spl_fam n nc nlo nhi K l h F -> spl_fam n nc nlo nhi K l' h' F' ->
    spl_fam n nc nlo nhi K (fun m => a * l m + b * l' m) (fun m => a * h m + b * h' m) (fun t => a * F t + b * F' t).
Proof.
  intros HK a b l h F l' h' F' (Q & SQ & T1 & T2) (Q' & SQ' & T1' & T2'). exists (fun q => lcomb a b (Q q) (Q' q)). split; [apply spline_lcomb; auto|].
  split; apply taylor_lcomb; auto; destruct SQ as [P _], SQ' as [P' _].
  - destruct (P 0%nat ltac:(lia)), (P' 0%nat ltac:(lia)). congruence.
  - destruct (P (length K - 2)%nat ltac:(lia)), (P' (length K - 2)%nat ltac:(lia)). congruence.
Qed.
Lemma spl_ext n nc nlo nhi K l h F l' h' : (forall m, (m < nlo)%nat -> l m = l' m) -> (forall m, (m < nhi)%nat -> h m = h' m) -> spl_fam n nc nlo nhi K l h F -> spl_fam n nc nlo nhi K l' h' F.
Proof.
  intros E1 E2 (Q & SQ & T1 & T2). exists Q. split; [exact SQ|]. rewrite taylor_is_tay in T1, T2. split; apply taylor_is_tay; intros m Hm; [rewrite <- E1|rewrite <- E2]; auto.
Qed.
Lemma pieces_zero n K Q F : (2 <= length K)%nat -> incr K -> pieces_on n K Q F -> (forall k p, (S k < length K)%nat -> nth p (Q k) 0 = 0) -> forall t, in_knots K t -> F t = 0.
Proof.
  intros HK Hi P Z t Ht. destruct (knot_cover K t HK Hi Ht) as (q & Hq & Hqt). destruct (P q Hq) as [_ E]. rewrite E by auto. rewrite <- tay_0. apply zcol_tay.
  intros i. apply Z. auto.
Qed.
Lemma spl_det n nc nlo nhi K N X : (2 <= length K)%nat -> incr K -> determined n nc K N X nlo nhi -> forall l h F,
  (forall m, (m < nlo)%nat -> l m = 0) -> (forall m, (m < nhi)%nat -> h m = 0) -> spl_fam n nc nlo nhi K l h F -> (forall t, (t < N)%nat -> F (X t) = 0) -> forall t, in_knots K t -> F t = 0.
Proof.
  intros HK Hi D l h F E1 E2 (Q & SQ & T1 & T2) Z. apply (pieces_zero n K Q F HK Hi (proj1 SQ)). apply (D Q F SQ).
  - rewrite taylor_is_tay in *. intros m Hm. rewrite T1, E1; auto.
  - rewrite taylor_is_tay in *. intros m Hm. rewrite T2, E2; auto.
  - exact Z.
Qed.
Lemma per_comb n nc K : (2 <= length K)%nat -> forall a b (l h : nat -> R) F (l' h' : nat -> R) F', per_fam n nc K l h F -> per_fam n nc K l' h' F' ->
    per_fam n nc K (fun m => a * l m + b * l' m) (fun m => a * h m + b * h' m) (fun t => a * F t + b * F' t).
Proof.
  intros HK a b l h F l' h' F' (Q & SQ & PT & J) (Q' & SQ' & PT' & J'). exists (fun q => lcomb a b (Q q) (Q' q)). split; [apply spline_lcomb; auto|]. split.
  - intros t. rewrite PT, PT'. reflexivity.
  - destruct SQ as [P _], SQ' as [P' _]. apply joined_lcomb; auto;
      destruct (P 0%nat ltac:(lia)), (P' 0%nat ltac:(lia)), (P (length K - 2)%nat ltac:(lia)), (P' (length K - 2)%nat ltac:(lia)); congruence.
Qed.
Lemma per_everywhere T x0 F : 0 < T -> periodic T F -> (forall t, x0 < t <= x0 + T -> F t = 0) -> forall t, F t = 0.
Proof.
  intros HT P Z t. destruct (base_point x0 T t HT) as (m & Hm). rewrite <- (per_shift F T P m t). apply Z. lra.
Qed.
Definition pl_fam (nlo nhi : nat) (K : list R) (l h : nat -> R) (F : R -> R) : Prop :=
  exists v, polyline K v F /\ (nlo <> 0%nat -> v 0%nat = l 0%nat) /\ (nhi <> 0%nat -> v (length K - 1)%nat = h 0%nat).
Lemma seg_comb K a b v v' q t : seg K (fun i => a * v i + b * v' i) q t = a * seg K v q t + b * seg K v' q t.
Proof. unfold seg, Rdiv. ring. Qed.
Lemma pl_comb nlo nhi K : forall a b l h F l' h' F', pl_fam nlo nhi K l h F -> pl_fam nlo nhi K l' h' F' ->
  pl_fam nlo nhi K (fun m => a * l m + b * l' m) (fun m => a * h m + b * h' m) (fun t => a * F t + b * F' t).
Proof.
  intros a b l h F l' h' F' (v & P & A & B) (v' & P' & A' & B'). exists (fun i => a * v i + b * v' i). split; [|split].
  - intros q t Hq Ht. rewrite (P q t Hq Ht), (P' q t Hq Ht), seg_comb. reflexivity.
  - intros Hn. rewrite A, A' by auto. reflexivity.
  - intros Hn. rewrite B, B' by auto. reflexivity.
Qed.
Lemma pl_ext nlo nhi K l h F l' h' : (forall m, (m < nlo)%nat -> l m = l' m) -> (forall m, (m < nhi)%nat -> h m = h' m) -> pl_fam nlo nhi K l h F -> pl_fam nlo nhi K l' h' F.
Proof. intros E1 E2 (v & P & A & B). exists v. split; [exact P|]. split; intros Hn; [rewrite <- E1 by lia|rewrite <- E2 by lia]; auto. Qed.
Lemma pl_zero K v F : (2 <= length K)%nat -> incr K -> polyline K v F -> (forall k, (k < length K)%nat -> v k = 0) -> forall t, in_knots K t -> F t = 0.
Proof.
  intros HK Hi P Z t Ht. destruct (knot_cover K t HK Hi Ht) as (q & Hq & Hqt). rewrite (P q t Hq Hqt). unfold seg. rewrite !Z by lia. unfold Rdiv. ring.
Qed.
Lemma polyline_same K v F G t : (2 <= length K)%nat -> incr K -> polyline K v F -> polyline K v G -> in_knots K t -> F t = G t.
Proof. intros HK Hi P P' Ht. destruct (knot_cover K t HK Hi Ht) as (q & Hq & Hqt). rewrite (P q t Hq Hqt), (P' q t Hq Hqt). reflexivity. Qed.
Lemma pl_det N X K (lo hi : list (nd R)) : (2 <= length K)%nat -> incr K -> (forall t, (t < N)%nat -> in_knots K (X t)) -> determines N X K lo hi -> forall l h F,
  (forall m, (m < length lo)%nat -> l m = 0) -> (forall m, (m < length hi)%nat -> h m = 0) -> pl_fam (length lo) (length hi) K l h F ->
  (forall t, (t < N)%nat -> F (X t) = 0) -> forall t, in_knots K t -> F t = 0.
Proof.
  intros HK Hi HX D l h F E1 E2 (v & P & A & B) Z. apply (pl_zero K v F HK Hi P). apply D.
  - intros Hl. rewrite A, E1; auto; destruct lo; cbn; congruence || lia.
  - intros Hl. rewrite B, E2; auto; destruct hi; cbn; congruence || lia.
  - intros G PG t Ht. rewrite (polyline_same K v G F (X t) HK Hi PG P (HX t Ht)). auto.
Qed.
(* polylines are splines of degree 1 *)
Lemma polyline_spline K v F : incr K -> polyline K v F -> exists Q, spline_on 1 0 K Q F /\ (forall q, (S q < length K)%nat -> nth 0 (Q q) 0 = v q /\ tay 0 (Q q) (nth (S q) K 0 - nth q K 0) = v (S q)).
Proof.
  intros Hi P. set (Q := fun q => [v q; (v (S q) - v q) / (nth (S q) K 0 - nth q K 0)]).
  assert (V : forall q, (S q < length K)%nat -> nth 0 (Q q) 0 = v q /\ tay 0 (Q q) (nth (S q) K 0 - nth q K 0) = v (S q)).
  { intros q Hq. split; [reflexivity|]. unfold Q. cbn. pose proof (Hi q Hq). field. lra. }
  exists Q. split; [|exact V]. split.
  - intros q Hq. split; [reflexivity|]. intros t Ht. rewrite (P q t Hq Ht), <- tay_0. unfold Q, seg. cbn. rewrite ?Nat.add_1_r. pose proof (Hi q Hq). field. lra.
  - intros q Hq. apply joined_tay. intros k Hk. assert (k = 0)%nat as -> by lia. rewrite (proj2 (V q ltac:(lia))). reflexivity.
Qed.
Lemma spline_polyline K Q F : incr K -> spline_on 1 0 K Q F -> (2 <= length K)%nat ->
  exists v, polyline K v F /\ (forall q, (S q < length K)%nat -> v q = nth 0 (Q q) 0 /\ v (S q) = tay 0 (Q q) (nth (S q) K 0 - nth q K 0)).
Proof.
  intros Hi [P J] HK. exists (fun q => F (nth q K 0)).
  assert (V : forall q, (S q < length K)%nat -> F (nth q K 0) = nth 0 (Q q) 0 /\ F (nth (S q) K 0) = tay 0 (Q q) (nth (S q) K 0 - nth q K 0)).
  { intros q Hq. destruct (P q Hq) as [_ E]. pose proof (Hi q Hq). rewrite !E by lra. rewrite tay_0, <- (peval_0 (Q q)). split; [f_equal; ring|reflexivity]. }
  split; [|exact V]. intros q t Hq Ht. destruct (P q Hq) as [L E]. pose proof (Hi q Hq). rewrite E by auto. unfold seg. rewrite ?Nat.add_1_r. destruct (V q Hq) as [-> ->].
  destruct (Q q) as [|a [|b [|]]]; cbn in L; try lia. rewrite <- tay_0. cbn. field. lra.
Qed.
Lemma fit_knots_unique (P P' : R -> Prop) xk K K' : (forall v, P v <-> P' v) -> fit_knots P xk K -> fit_knots P' xk K' -> K = K'.
Proof.
  intros E (a & b & -> & HA & HB) (a' & b' & -> & HA' & HB'). f_equal; [|f_equal].
  - destruct HA as [[-> H]|(m & -> & P1 & L1 & H)], HA' as [[-> H']|(m' & -> & P1' & L1' & H')]; auto.
    + apply E in P1'. apply H in P1'. lra.
    + apply E in P1. apply H' in P1. lra.
    + pose proof (H _ (proj2 (E _) P1')). pose proof (H' _ (proj1 (E _) P1)). f_equal. lra.
  - destruct HB as [[-> H]|(m & -> & P1 & L1 & H)], HB' as [[-> H']|(m' & -> & P1' & L1' & H')]; auto.
    + apply E in P1'. apply H in P1'. lra.
    + apply E in P1. apply H' in P1. lra.
    + pose proof (H _ (proj2 (E _) P1')). pose proof (H' _ (proj1 (E _) P1)). f_equal. lra.
Qed.

(** ** the theorems *)
(* G is a piecewise polynomial of degree n with nc continuous derivatives and the end values lo, hi *)
Definition admissible (n nc : nat) (K : list R) (lo hi : list (nd R)) (comp : list nat) (G : R -> R) : Prop :=
  exists Q, spline_on n nc K Q G /\ bc_met lo comp (Q 0%nat) 0 /\ bc_met hi comp (Q (length K - 2)%nat) (nth (length K - 1) K 0 - nth (length K - 2) K 0).
Definition bcv (l : list (nd R)) (comp : list nat) (m : nat) : R := bget (nth m l (full [] 0)) comp.
Section Fits.
  Variable inv : nat -> (nat -> nat -> R) -> (nat -> nat -> R).
  Variable sh : arr2 R -> arr2 R -> res (arr2 R).
  Variable sb : nat -> nat -> arr2 R -> arr2 R -> res (arr2 R).
  Variable s : arr2 R -> arr2 R -> res (arr2 R).
  Hypothesis Hinv : inv_spec inv.
  Hypothesis Hsh : solveh_spec sh.
  Hypothesis Hsb : banded_spec sb.
  Hypothesis Hs : dense_spec s.
  (* the arguments of a fit: data that fit together and nonzero errors *)
  Definition good_data (xk : list R) (x y : nd R) (sigy : option (nd R)) (lo hi : list (nd R)) (ysh us : list nat) : Prop :=
    incr xk /\ (2 <= length xk)%nat /\ conform x y sigy lo hi ysh us /\ size ysh <> 0%nat /\
    (forall comp t, inb comp ysh -> (t < size us)%nat -> dS sigy us comp t <> 0).

  Lemma spl_best xk x y sigy n nc lo hi ex e g p ysh us K comp : good_data xk x y sigy lo hi ysh us ->
    sp_ex (sp_nc n nc) ex = (e, g) -> (0 <= e)%Z -> splfit sb s xk x y sigy n nc lo hi false ex = Ok p -> fit_knots (datum x) xk K -> inb comp ysh ->
    incr K /\ (2 <= length K)%nat /\ exists F, (forall t, pw_call p comp t = Ok (F t)) /\
      best (size us) (dX x us) (spl_fam n (Z.to_nat (sp_nc n nc)) (length lo) (length hi) K) (bcv lo comp) (bcv hi comp) (dY y us comp) (dS sigy us comp) F.
  Proof using Hsb.
    intros (Hi & Hx & Hcf & Hsz & Hsig) He He0 E HK Hb.
    destruct (C59_splfit sb s Hsb xk x y sigy n nc lo hi ex e g p ysh us Hi Hx Hcf Hsz Hsig He He0 E) as (_ & _ & _ & K' & HK' & _ & H).
    assert (K' = K) as -> by (apply (fit_knots_unique (datum x) (datum x) xk); auto; tauto).
    destruct (fit_knots_incr _ _ _ Hi Hx HK) as (KI & KL & _). split; [exact KI|]. split; [exact KL|].
    destruct (H comp Hb) as (F & Q & D & C & SQ & _ & _ & B1 & B2 & O). exists F. split; [exact C|]. split; [exists Q; auto|].
    intros G (Q' & SQ' & B1' & B2'). apply (O Q' G); auto.
  Qed.
  (* splfit returns the only optimum *)
  Theorem C113_splfit : forall xk x y sigy n nc lo hi ex e g p ysh us K comp, good_data xk x y sigy lo hi ysh us ->
    sp_ex (sp_nc n nc) ex = (e, g) -> (0 <= e)%Z -> splfit sb s xk x y sigy n nc lo hi false ex = Ok p -> fit_knots (datum x) xk K -> inb comp ysh ->
    let c := Z.to_nat (sp_nc n nc) in
    determined n c K (size us) (dX x us) (length lo) (length hi) -> forall G, admissible n c K lo hi comp G ->
    (forall G', admissible n c K lo hi comp G' ->
       chi2 (size us) (dX x us) (dY y us comp) (dS sigy us comp) G <= chi2 (size us) (dX x us) (dY y us comp) (dS sigy us comp) G') ->
    forall t, in_knots K t -> pw_call p comp t = Ok (G t).
  Proof using Hsb.
    intros xk x y sigy n nc lo hi ex e g p ysh us K comp Hd He He0 E HK Hb c D G AG MG t Ht.
    destruct (spl_best xk x y sigy n nc lo hi ex e g p ysh us K comp Hd He He0 E HK Hb) as (KI & KL & F & C & BF). rewrite C. f_equal.
    refine (best_unique (length lo) (length hi) (size us) (dX x us) (in_knots K) _ (spl_comb n c (length lo) (length hi) K KL) (spl_ext n c (length lo) (length hi) K)
      (spl_det n c (length lo) (length hi) K _ _ KL KI D) (bcv lo comp) (bcv hi comp) _ _ F G _ BF AG _ t Ht).
    - intros u Hu. apply Hd; auto.
    - apply MG. apply BF.
  Qed.
  (* data taken from an admissible function give this function *)
  Theorem C113_splfit_reproduces : forall xk x y sigy n nc lo hi ex e g p ysh us K comp, good_data xk x y sigy lo hi ysh us ->
    sp_ex (sp_nc n nc) ex = (e, g) -> (0 <= e)%Z -> splfit sb s xk x y sigy n nc lo hi false ex = Ok p -> fit_knots (datum x) xk K -> inb comp ysh ->
    let c := Z.to_nat (sp_nc n nc) in
    determined n c K (size us) (dX x us) (length lo) (length hi) -> forall G, admissible n c K lo hi comp G ->
    (forall t, (t < size us)%nat -> dY y us comp t = G (dX x us t)) -> forall t, in_knots K t -> pw_call p comp t = Ok (G t).
  Proof using Hsb.
    intros xk x y sigy n nc lo hi ex e g p ysh us K comp Hd He He0 E HK Hb c D G AG EG. apply (C113_splfit xk x y sigy n nc lo hi ex e g p ysh us K comp); auto.
    intros G' _. replace (chi2 (size us) (dX x us) (dY y us comp) (dS sigy us comp) G) with 0; [apply rsum_nonneg; intros; apply pow2_ge_0|].
    symmetry. apply rsum_zero. intros t Ht. rewrite EG by auto. unfold Rdiv. ring.
  Qed.
  (* the fit depends linearly on y, lo and hi *)
  Theorem C113_splfit_linear : forall xk x sigy n nc ex e g ysh us K comp a b y1 lo1 hi1 p1 y2 lo2 hi2 p2 y3 lo3 hi3 p3,
    good_data xk x y1 sigy lo1 hi1 ysh us -> good_data xk x y2 sigy lo2 hi2 ysh us -> good_data xk x y3 sigy lo3 hi3 ysh us ->
    sp_ex (sp_nc n nc) ex = (e, g) -> (0 <= e)%Z -> splfit sb s xk x y1 sigy n nc lo1 hi1 false ex = Ok p1 -> splfit sb s xk x y2 sigy n nc lo2 hi2 false ex = Ok p2 ->
    splfit sb s xk x y3 sigy n nc lo3 hi3 false ex = Ok p3 -> fit_knots (datum x) xk K -> inb comp ysh ->
    length lo1 = length lo3 -> length lo2 = length lo3 -> length hi1 = length hi3 -> length hi2 = length hi3 ->
    (forall m, (m < length lo3)%nat -> bcv lo3 comp m = a * bcv lo1 comp m + b * bcv lo2 comp m) -> (forall m, (m < length hi3)%nat -> bcv hi3 comp m = a * bcv hi1 comp m + b * bcv hi2 comp m) ->
    (forall t, (t < size us)%nat -> dY y3 us comp t = a * dY y1 us comp t + b * dY y2 us comp t) ->
    determined n (Z.to_nat (sp_nc n nc)) K (size us) (dX x us) (length lo3) (length hi3) ->
    forall t, in_knots K t -> exists v1 v2, pw_call p1 comp t = Ok v1 /\ pw_call p2 comp t = Ok v2 /\ pw_call p3 comp t = Ok (a * v1 + b * v2).
  Proof using Hsb.
    intros xk x sigy n nc ex e g ysh us K comp a b y1 lo1 hi1 p1 y2 lo2 hi2 p2 y3 lo3 hi3 p3 D1 D2 D3 He He0 E1 E2 E3 HK Hb L1 L2 M1 M2 EL EH EY D t Ht.
    destruct (spl_best xk x y1 sigy n nc lo1 hi1 ex e g p1 ysh us K comp D1 He He0 E1 HK Hb) as (KI & KL & F1 & C1 & B1).
    destruct (spl_best xk x y2 sigy n nc lo2 hi2 ex e g p2 ysh us K comp D2 He He0 E2 HK Hb) as (_ & _ & F2 & C2 & B2).
    destruct (spl_best xk x y3 sigy n nc lo3 hi3 ex e g p3 ysh us K comp D3 He He0 E3 HK Hb) as (_ & _ & F3 & C3 & B3).
    rewrite L1, M1 in B1. rewrite L2, M2 in B2. exists (F1 t), (F2 t). rewrite C1, C2, C3. split; [reflexivity|]. split; [reflexivity|]. f_equal.
    set (c := Z.to_nat (sp_nc n nc)) in *.
    refine (best_linear (length lo3) (length hi3) (size us) (dX x us) (in_knots K) _ (spl_comb n c (length lo3) (length hi3) K KL) (spl_ext n c (length lo3) (length hi3) K)
      (spl_det n c (length lo3) (length hi3) K _ _ KL KI D) a b _ _ _ F1 _ _ _ F2 _ _ _ F3 _ _ B1 B2 B3 EL EH EY t Ht).
    intros u Hu. apply D1; auto.
  Qed.
  (* neither the order of the points nor a common factor of the errors matters *)
  Theorem C113_splfit_order : forall xk n nc lo hi ex e g ysh K comp k x y sigy us p x' y' sigy' us' p',
    good_data xk x y sigy lo hi ysh us -> good_data xk x' y' sigy' lo hi ysh us' -> sp_ex (sp_nc n nc) ex = (e, g) -> (0 <= e)%Z ->
    splfit sb s xk x y sigy n nc lo hi false ex = Ok p -> splfit sb s xk x' y' sigy' n nc lo hi false ex = Ok p' ->
    (forall v, datum x v <-> datum x' v) -> fit_knots (datum x) xk K -> inb comp ysh -> k <> 0 ->
    Permutation (triples (size us) (dX x us) (dY y us comp) (dS sigy us comp)) (triples (size us') (dX x' us') (dY y' us' comp) (fun t => k * dS sigy' us' comp t)) ->
    determined n (Z.to_nat (sp_nc n nc)) K (size us) (dX x us) (length lo) (length hi) ->
    forall t, in_knots K t -> exists v, pw_call p comp t = Ok v /\ pw_call p' comp t = Ok v.
  Proof using Hsb.
    intros xk n nc lo hi ex e g ysh K comp k x y sigy us p x' y' sigy' us' p' D1 D2 He He0 E1 E2 ED HK Hb Hk HP D t Ht.
    assert (HK' : fit_knots (datum x') xk K).
    { destruct HK as (a & b & -> & HA & HB). exists a, b. split; [reflexivity|]. split.
      - destruct HA as [[-> H]|(m & -> & P1 & L1 & H)]; [left|right; exists m]; repeat split; auto; [intros v Hv; apply H, ED, Hv|apply ED, P1|intros v Hv; apply H, ED, Hv].
      - destruct HB as [[-> H]|(m & -> & P1 & L1 & H)]; [left|right; exists m]; repeat split; auto; [intros v Hv; apply H, ED, Hv|apply ED, P1|intros v Hv; apply H, ED, Hv]. }
    destruct (spl_best xk x' y' sigy' n nc lo hi ex e g p' ysh us' K comp D2 He He0 E2 HK' Hb) as (KI & KL & F & C & AF & MF). exists (F t). rewrite C. split; [|reflexivity].
    apply (C113_splfit xk x y sigy n nc lo hi ex e g p ysh us K comp D1 He He0 E1 HK Hb D F); auto.
    intros G' AG. assert (Hn : forall t, (t < size us')%nat -> dS sigy' us' comp t <> 0) by (intros u Hu; apply D2; auto).
    pose proof (MF G' AG) as M. rewrite !(chi2_perm k _ _ _ _ _ _ _ _ _ Hk Hn HP) in M. apply Rmult_le_reg_l in M; [exact M|]. nra.
  Qed.
  Theorem C113_splfit_periodic : forall xk x y sigy n nc p ysh us comp, good_data xk x y sigy [] [] ysh us ->
    splfit sb s xk x y sigy n nc [] [] true ExNone = Ok p -> inb comp ysh ->
    let c := Z.to_nat (sp_nc n nc) in
    (forall Q F, spline_per n c xk Q F -> (forall t, (t < size us)%nat -> F (dX x us t) = 0) -> forall k p, (S k < length xk)%nat -> nth p (Q k) 0 = 0) ->
    forall Q G, spline_per n c xk Q G ->
    (forall Q' G', spline_per n c xk Q' G' ->
       chi2 (size us) (dX x us) (dY y us comp) (dS sigy us comp) G <= chi2 (size us) (dX x us) (dY y us comp) (dS sigy us comp) G') \/
    (forall t, (t < size us)%nat -> dY y us comp t = G (dX x us t)) ->
    forall t, pw_call p comp t = Ok (G t).
  Proof using Hsb Hs.
    intros xk x y sigy n nc p ysh us comp (Hi & Hx & Hcf & Hsz & Hsig) E Hb c D Q G AG MG t.
    destruct (C59_periodic sb s Hsb Hs xk x y sigy n nc p ysh us Hi Hx Hcf Hsz Hsig E) as (_ & _ & _ & H).
    destruct (H comp Hb) as (F & Q0 & D0 & C & SQ & _ & O). rewrite C. f_equal. fold c in SQ, O.
    assert (BF : best (size us) (dX x us) (per_fam n c xk) (fun _ => 0) (fun _ => 0) (dY y us comp) (dS sigy us comp) F).
    { split; [exists Q0; auto|]. intros G' (Q' & SQ'). apply (O Q' G' SQ'). }
    refine (best_unique 0 0 (size us) (dX x us) (fun _ => True) _ (per_comb n c xk Hx) _ _ (fun _ => 0) (fun _ => 0) _ _ F G _ BF _ _ t I).
    - intros l h F' l' h' _ _ A. exact A.
    - intros l h F' _ _ (Q' & SQ' & PT & J) Z u _. assert (T0 : 0 < nth (length xk - 1) xk 0 - nth 0 xk 0) by (pose proof (incr_lt xk 0 (length xk - 1) Hi ltac:(lia)); lra).
      apply (per_everywhere _ (nth 0 xk 0) F' T0 PT). intros u' Hu'. apply (pieces_zero n xk Q' F' Hx Hi (proj1 SQ')); [|unfold in_knots; lra].
      apply (D Q' F'); [split; auto|auto].
    - intros u Hu. apply Hsig; auto.
    - exists Q. exact AG.
    - destruct MG as [MG|MG]; [apply (MG Q0 F SQ)|].
      replace (chi2 (size us) (dX x us) (dY y us comp) (dS sigy us comp) G) with 0; [apply rsum_nonneg; intros; apply pow2_ge_0|].
      symmetry. apply rsum_zero. intros u Hu. rewrite MG by auto. unfold Rdiv. ring.
  Qed.

  (* G is a polyline with the end values lo, hi *)
  Definition adm_pl (K : list R) (lo hi : list (nd R)) (comp : list nat) (G : R -> R) : Prop :=
    exists v, polyline K v G /\ meets lo comp (v 0%nat) /\ meets hi comp (v (length K - 1)%nat).
  Lemma meets_bcv lo comp v : meets lo comp v <-> (length lo <> 0%nat -> v = bcv lo comp 0).
  Proof using. destruct lo as [|b lo]; cbn; split; auto; try tauto. Qed.
  Lemma adm_pl_fam K lo hi comp G : adm_pl K lo hi comp G <-> pl_fam (length lo) (length hi) K (bcv lo comp) (bcv hi comp) G.
  Proof using. split; intros (v & P & A & B); exists v; split; auto; split; apply meets_bcv; auto. Qed.
  Lemma pl_best xk x y sigy lo hi ex e g p ysh us K comp : good_data xk x y sigy lo hi ysh us ->
    ex_pair 1 ex = (e, g) -> (0 <= e)%Z -> plfit inv sh sb s xk x y sigy lo hi false ex = Ok p -> fit_knots (datum x) xk K -> inb comp ysh ->
    incr K /\ (2 <= length K)%nat /\ (forall t, (t < size us)%nat -> in_knots K (dX x us t)) /\ exists F, (forall t, pw_call p comp t = Ok (F t)) /\
      best (size us) (dX x us) (pl_fam (length lo) (length hi) K) (bcv lo comp) (bcv hi comp) (dY y us comp) (dS sigy us comp) F.
  Proof using Hinv Hsh.
    intros (Hi & Hx & Hcf & Hsz & Hsig) He He0 E HK Hb.
    destruct (C58_plfit inv sh sb s Hinv Hsh xk x y sigy lo hi ex e g p ysh us Hi Hx Hcf Hsz Hsig He He0 E) as (K' & HK' & _ & H).
    assert (K' = K) as -> by (apply (fit_knots_unique (datum x) (datum x) xk); auto; tauto).
    destruct (fit_knots_incr _ _ _ Hi Hx HK) as (KI & KL & KR). split; [exact KI|]. split; [exact KL|]. split.
    { intros t Ht. apply KR. eapply dX_datum; eauto. }
    destruct (H comp Hb) as (F & v & C & PL & B1 & B2 & O). exists F. split; [exact C|]. split; [apply adm_pl_fam; exists v; auto|].
    intros G AG. apply adm_pl_fam in AG. destruct AG as (v' & PL' & B1' & B2'). apply (O v' G); auto.
  Qed.
  (* plfit returns the only optimum; data on an admissible polyline give this polyline *)
  Theorem C113_plfit : forall xk x y sigy lo hi ex e g p ysh us K comp, good_data xk x y sigy lo hi ysh us ->
    ex_pair 1 ex = (e, g) -> (0 <= e)%Z -> plfit inv sh sb s xk x y sigy lo hi false ex = Ok p -> fit_knots (datum x) xk K -> inb comp ysh ->
    determines (size us) (dX x us) K lo hi -> forall G, adm_pl K lo hi comp G ->
    (forall G', adm_pl K lo hi comp G' ->
       chi2 (size us) (dX x us) (dY y us comp) (dS sigy us comp) G <= chi2 (size us) (dX x us) (dY y us comp) (dS sigy us comp) G') \/
    (forall t, (t < size us)%nat -> dY y us comp t = G (dX x us t)) ->
    forall t, in_knots K t -> pw_call p comp t = Ok (G t).
  Proof using Hinv Hsh.
    intros xk x y sigy lo hi ex e g p ysh us K comp Hd He He0 E HK Hb D G AG MG t Ht.
    destruct (pl_best xk x y sigy lo hi ex e g p ysh us K comp Hd He He0 E HK Hb) as (KI & KL & KX & F & C & BF). rewrite C. f_equal.
    refine (best_unique (length lo) (length hi) (size us) (dX x us) (in_knots K) _ (pl_comb (length lo) (length hi) K) (pl_ext (length lo) (length hi) K)
      (pl_det _ _ K lo hi KL KI KX D) (bcv lo comp) (bcv hi comp) _ _ F G _ BF (proj1 (adm_pl_fam _ _ _ _ _) AG) _ t Ht).
    - intros u Hu. apply Hd; auto.
    - destruct MG as [MG|MG]; [apply MG, adm_pl_fam, BF|].
      replace (chi2 (size us) (dX x us) (dY y us comp) (dS sigy us comp) G) with 0; [apply rsum_nonneg; intros; apply pow2_ge_0|].
      symmetry. apply rsum_zero. intros u Hu. rewrite MG by auto. unfold Rdiv. ring.
  Qed.
  Theorem C113_plfit_linear : forall xk x sigy ex e g ysh us K comp a b y1 lo1 hi1 p1 y2 lo2 hi2 p2 y3 lo3 hi3 p3,
    good_data xk x y1 sigy lo1 hi1 ysh us -> good_data xk x y2 sigy lo2 hi2 ysh us -> good_data xk x y3 sigy lo3 hi3 ysh us ->
    ex_pair 1 ex = (e, g) -> (0 <= e)%Z -> plfit inv sh sb s xk x y1 sigy lo1 hi1 false ex = Ok p1 -> plfit inv sh sb s xk x y2 sigy lo2 hi2 false ex = Ok p2 ->
    plfit inv sh sb s xk x y3 sigy lo3 hi3 false ex = Ok p3 -> fit_knots (datum x) xk K -> inb comp ysh ->
    length lo1 = length lo3 -> length lo2 = length lo3 -> length hi1 = length hi3 -> length hi2 = length hi3 ->
    (forall m, (m < length lo3)%nat -> bcv lo3 comp m = a * bcv lo1 comp m + b * bcv lo2 comp m) -> (forall m, (m < length hi3)%nat -> bcv hi3 comp m = a * bcv hi1 comp m + b * bcv hi2 comp m) ->
    (forall t, (t < size us)%nat -> dY y3 us comp t = a * dY y1 us comp t + b * dY y2 us comp t) ->
    determines (size us) (dX x us) K lo3 hi3 ->
    forall t, in_knots K t -> exists v1 v2, pw_call p1 comp t = Ok v1 /\ pw_call p2 comp t = Ok v2 /\ pw_call p3 comp t = Ok (a * v1 + b * v2).
  Proof using Hinv Hsh.
    intros xk x sigy ex e g ysh us K comp a b y1 lo1 hi1 p1 y2 lo2 hi2 p2 y3 lo3 hi3 p3 D1 D2 D3 He He0 E1 E2 E3 HK Hb L1 L2 M1 M2 EL EH EY D t Ht.
    destruct (pl_best xk x y1 sigy lo1 hi1 ex e g p1 ysh us K comp D1 He He0 E1 HK Hb) as (KI & KL & KX & F1 & C1 & B1).
    destruct (pl_best xk x y2 sigy lo2 hi2 ex e g p2 ysh us K comp D2 He He0 E2 HK Hb) as (_ & _ & _ & F2 & C2 & B2).
    destruct (pl_best xk x y3 sigy lo3 hi3 ex e g p3 ysh us K comp D3 He He0 E3 HK Hb) as (_ & _ & _ & F3 & C3 & B3).
    rewrite L1, M1 in B1. rewrite L2, M2 in B2. exists (F1 t), (F2 t). rewrite C1, C2, C3. split; [reflexivity|]. split; [reflexivity|]. f_equal.
    refine (best_linear (length lo3) (length hi3) (size us) (dX x us) (in_knots K) _ (pl_comb (length lo3) (length hi3) K) (pl_ext (length lo3) (length hi3) K)
      (pl_det _ _ K lo3 hi3 KL KI KX D) a b _ _ _ F1 _ _ _ F2 _ _ _ F3 _ _ B1 B2 B3 EL EH EY t Ht).
    intros u Hu. apply D1; auto.
  Qed.
  (* plfit is splfit of degree 1 *)
  Theorem C113_plfit_is_splfit : forall xk x y sigy lo hi ex e g ex' e' g' p p' ysh us K comp, good_data xk x y sigy lo hi ysh us ->
    ex_pair 1 ex = (e, g) -> (0 <= e)%Z -> sp_ex 0 ex' = (e', g') -> (0 <= e')%Z ->
    plfit inv sh sb s xk x y sigy lo hi false ex = Ok p -> splfit sb s xk x y sigy 1 None lo hi false ex' = Ok p' ->
    fit_knots (datum x) xk K -> inb comp ysh -> determined 1 0 K (size us) (dX x us) (length lo) (length hi) ->
    forall t, in_knots K t -> exists v, pw_call p comp t = Ok v /\ pw_call p' comp t = Ok v.
  Proof using Hinv Hsh Hsb.
    intros xk x y sigy lo hi ex e g ex' e' g' p p' ysh us K comp Hd He He0 He' He0' E E' HK Hb D t Ht.
    destruct (pl_best xk x y sigy lo hi ex e g p ysh us K comp Hd He He0 E HK Hb) as (KI & KL & KX & F & C & AF & MF).
    exists (F t). rewrite C. split; [reflexivity|].
    destruct Hd as (H1 & H2 & H3 & H4 & H5). pose proof (C59_splfit sb s Hsb xk x y sigy 1 None lo hi ex' e' g' p' ysh us H1 H2 H3 H4 H5 He' He0' E') as (_ & LL & LH & _).
    change (sp_nc 1 None) with 0%Z in LL, LH.
    assert (EQ : forall G, admissible 1 0 K lo hi comp G <-> pl_fam (length lo) (length hi) K (bcv lo comp) (bcv hi comp) G).
    { intros G. split.
      - intros (Q & SQ & B1 & B2). rewrite bc_met_tay in B1, B2. destruct (spline_polyline K Q G KI SQ KL) as (v & P & V). exists v. split; [exact P|]. split; intros Hn.
        + rewrite (proj1 (V 0%nat ltac:(lia))), <- tay_at_0. apply B1. lia.
        + pose proof (proj2 (V (length K - 2)%nat ltac:(lia))) as VL. replace (S (length K - 2)) with (length K - 1)%nat in VL by lia. rewrite VL. apply B2. lia.
      - intros (v & P & A & B). destruct (polyline_spline K v G KI P) as (Q & SQ & V). exists Q. split; [exact SQ|]. split; apply bc_met_tay; intros m Hm; assert (m = 0)%nat as -> by lia.
        + rewrite tay_at_0, (proj1 (V 0%nat ltac:(lia))). apply A. lia.
        + pose proof (proj2 (V (length K - 2)%nat ltac:(lia))) as VL. replace (S (length K - 2)) with (length K - 1)%nat in VL by lia. rewrite VL. apply B. lia. }
    apply (C113_splfit xk x y sigy 1 None lo hi ex' e' g' p' ysh us K comp); auto.
    - exact (conj H1 (conj H2 (conj H3 (conj H4 H5)))).
    - apply EQ. exact AF.
    - intros G' AG. apply MF, EQ, AG.
  Qed.
  Theorem C113_plfit_periodic : forall xk x y sigy p ysh us comp, good_data xk x y sigy [] [] ysh us ->
    plfit inv sh sb s xk x y sigy [] [] true ExNone = Ok p -> inb comp ysh ->
    let T := nth (length xk - 1) xk 0 - nth 0 xk 0 in
    (forall v F, polyline xk v F -> periodic T F -> (forall t, (t < size us)%nat -> F (dX x us t) = 0) -> forall k, (k < length xk)%nat -> v k = 0) ->
    forall v G, polyline xk v G -> periodic T G ->
    (forall v' G', polyline xk v' G' -> periodic T G' ->
       chi2 (size us) (dX x us) (dY y us comp) (dS sigy us comp) G <= chi2 (size us) (dX x us) (dY y us comp) (dS sigy us comp) G') \/
    (forall t, (t < size us)%nat -> dY y us comp t = G (dX x us t)) ->
    forall t, pw_call p comp t = Ok (G t).
  Proof using Hinv Hsb Hs.
    intros xk x y sigy p ysh us comp (Hi & Hx & Hcf & Hsz & Hsig) E Hb T D v G PG TG MG t.
    destruct (C58_periodic inv sh sb s Hinv Hsb Hs xk x y sigy p ysh us Hi Hx Hcf Hsz Hsig E) as (_ & _ & H).
    destruct (H comp Hb) as (F & v0 & C & PF & TF & O). rewrite C. f_equal. fold T in TF, O.
    set (adm := fun (_ _ : nat -> R) F => exists v, polyline xk v F /\ periodic T F).
    assert (BF : best (size us) (dX x us) adm (fun _ => 0) (fun _ => 0) (dY y us comp) (dS sigy us comp) F).
    { split; [exists v0; auto|]. intros G' (v' & P' & T'). apply (O v' G' P' T'). }
    refine (best_unique 0 0 (size us) (dX x us) (fun _ => True) adm _ _ _ (fun _ => 0) (fun _ => 0) _ _ F G _ BF _ _ t I).
    - intros a b l h F1 l' h' F2 (v1 & P1 & T1) (v2 & P2 & T2). exists (fun i => a * v1 i + b * v2 i). split.
      + intros q u Hq Hu. rewrite (P1 q u Hq Hu), (P2 q u Hq Hu), seg_comb. reflexivity.
      + intros u. rewrite T1, T2. reflexivity.
    - intros l h F' l' h' _ _ A. exact A.
    - intros l h F' _ _ (v' & P' & T') Z u _. assert (T0 : 0 < T) by (unfold T; pose proof (incr_lt xk 0 (length xk - 1) Hi ltac:(lia)); lra).
      apply (per_everywhere T (nth 0 xk 0) F' T0 T'). intros u' Hu'. apply (pl_zero xk v' F' Hx Hi P'); [|unfold in_knots, T in *; lra].
      apply (D v' F'); auto.
    - intros u Hu. apply Hsig; auto.
    - exists v. auto.
    - destruct MG as [MG|MG]; [apply (MG v0 F PF TF)|].
      replace (chi2 (size us) (dX x us) (dY y us comp) (dS sigy us comp) G) with 0; [apply rsum_nonneg; intros; apply pow2_ge_0|].
      symmetry. apply rsum_zero. intros u Hu. rewrite MG by auto. unfold Rdiv. ring.
  Qed.
End Fits.

(** ** regress *)
(* data made of the components with coefficients c: the fit goes through the data and is not longer
   than c; for independent components it is c *)
Theorem C113_regress_reproduces svd data mdl errs rcond p c :
  svd_sound svd -> mdl_ok data mdl -> errs_ok data errs -> no_cut svd data mdl errs rcond ->
  regress svd data mdl errs rcond = Ok p -> (forall t, (t < npts data)%nat -> dpt data t = mval data mdl c t) ->
  (forall t, (t < npts data)%nat -> mval data mdl (fun i => get p [i]) t = dpt data t) /\
  norm2 (length mdl) (fun i => get p [i]) <= norm2 (length mdl) c /\
  ((forall q, (forall t, (t < npts data)%nat -> mval data mdl q t = 0) -> forall i, (i < length mdl)%nat -> q i = 0) ->
   forall i, (i < length mdl)%nat -> get p [i] = c i).
Proof.
  intros Hsvd Hm He Hc H Hd. destruct (C62_regress svd data mdl errs rcond p Hsvd Hm He Hc H) as (_ & _ & B2 & B3).
  assert (Z : cost data mdl errs c = 0) by (apply rsum_zero; intros t Ht; rewrite Hd by auto; unfold Rdiv; ring).
  assert (P0 : forall q t, (t < npts data)%nat -> 0 <= ((mval data mdl q t - dpt data t) / ept errs t) ^ 2) by (intros; apply pow2_ge_0).
  pose proof (B2 c I) as L. rewrite Z in L. pose proof (rsum_nonneg _ _ (P0 (fun i => get p [i]))) as L'.
  assert (Z' : cost data mdl errs (fun i => get p [i]) = 0) by (unfold cost in *; lra).
  pose proof (rsum_nonneg_0 _ _ (P0 _) Z') as E. cbv beta in E.
  assert (V : forall t, (t < npts data)%nat -> mval data mdl (fun i => get p [i]) t = dpt data t).
  { intros t Ht. specialize (E t Ht). assert (HN : ept errs t <> 0) by (unfold ept; destruct errs; [apply He; auto|lra]).
    apply Rminus_diag_uniq. apply Rsqr_0_uniq. set (d := mval data mdl (fun i => get p [i]) t - dpt data t) in *.
    replace d with (d / ept errs t * ept errs t) by (field; auto). rewrite Rsqr_mult. unfold Rsqr at 1.
    replace (d / ept errs t * (d / ept errs t)) with ((d / ept errs t) ^ 2) by ring. rewrite E. ring. }
  split; [exact V|]. split; [apply B3; [exact I|lra]|]. intros Ind i Hi. apply Rminus_diag_uniq.
  apply (Ind (fun i => get p [i] - c i)); [|auto]. intros t Ht. transitivity (mval data mdl (fun i => get p [i]) t - mval data mdl c t).
  - unfold mval. rewrite <- rsum_minus. apply rsum_ext. intros j _. ring.
  - rewrite V, Hd by auto. ring.
Qed.
Lemma rg_core_svd svd data mdl errs rcond c :
  svd_sound svd -> mdl_ok data mdl -> errs_ok data errs -> rg_core svd data mdl errs rcond = Ok c ->
  exists u s v, svd (wmod data mdl errs) = Ok (u, s, v) /\ (0 < length s)%nat /\ core_ok data mdl errs rcond u s v c.
Proof.
  intros Hsvd Hm He H. destruct (rstd_ok data errs He) as [B1 B2].
  assert (X : exists u s v, svd (wmod data mdl errs) = Ok (u, s, v) /\ (0 < length s)%nat).
  { pose proof H as H'. unfold rg_core, rg_matrix in H'.
    replace (forallb (fun mi => bto (shp mi) (shp data)) mdl) with true in H'.
    2:{ symmetry. apply forallb_forall. intros mi Hi. apply Hm, Hi. }
    cbn [bind nr SolvePer.nc at2] in H'. fold (rstd errs) in H'.
    unfold nd_map2 at 1 in H'. cbn [shp nravel] in H'.
    rewrite (bshape_of_bto (shp (rstd errs)) [size (shp data)]) in H' by exact B1. cbn [bind] in H'.
    rewrite (bto_cons (shp (rstd errs)) (size (shp data)) (length mdl)) in H' by exact B1.
    fold (npts data) in H'. fold (wmod data mdl errs) in H'.
    destruct (svd (wmod data mdl errs)) as [[[u s] v]|]; [|discriminate]. cbn [bind fst snd] in H'.
    destruct (dot_mn v _); [|discriminate]. cbn [bind] in H'.
    destruct s as [|s0 s']; [discriminate|]. exists u, (s0 :: s'), v. split; [reflexivity|cbn; lia]. }
  destruct X as (u & s & v & Hr & Hs). pose proof (Hsvd _ _ _ _ Hr) as Hok.
  destruct (rg_core_run svd data mdl errs rcond u s v Hm He Hr Hok Hs) as (c' & Hc & Hco).
  rewrite Hc in H. injection H as <-. exists u, s, v. auto.
Qed.
(* regress is linear in the data, whichever singular values are dropped *)
Theorem C113_regress_linear svd data1 data2 data3 mdl errs rcond p1 p2 a b :
  svd_sound svd -> mdl_ok data1 mdl -> errs_ok data1 errs -> shp data2 = shp data1 -> shp data3 = shp data1 ->
  regress svd data1 mdl errs rcond = Ok p1 -> regress svd data2 mdl errs rcond = Ok p2 ->
  (forall t, (t < npts data1)%nat -> dpt data3 t = a * dpt data1 t + b * dpt data2 t) ->
  exists p3, regress svd data3 mdl errs rcond = Ok p3 /\ shp p3 = [length mdl] /\ forall i, get p3 [i] = a * get p1 [i] + b * get p2 [i].
Proof.
  intros Hsvd Hm He S2 S3 H1 H2 Hd. unfold regress in H1, H2.
  destruct (rg_core svd data1 mdl errs rcond) as [c1|] eqn:E1; [|discriminate]. cbn in H1. injection H1 as <-.
  destruct (rg_core svd data2 mdl errs rcond) as [c2|] eqn:E2; [|discriminate]. cbn in H2. injection H2 as <-.
  assert (N2 : npts data2 = npts data1) by (unfold npts; rewrite S2; reflexivity). assert (N3 : npts data3 = npts data1) by (unfold npts; rewrite S3; reflexivity).
  assert (M2 : mdl_ok data2 mdl) by (intros mi Hi; rewrite S2; apply Hm, Hi). assert (M3 : mdl_ok data3 mdl) by (intros mi Hi; rewrite S3; apply Hm, Hi).
  assert (HE2 : errs_ok data2 errs) by (unfold errs_ok in *; rewrite N2; exact He). assert (HE3 : errs_ok data3 errs) by (unfold errs_ok in *; rewrite N3; exact He).
  assert (W2 : wmod data2 mdl errs = wmod data1 mdl errs) by (unfold wmod, npts; rewrite S2; reflexivity).
  assert (W3 : wmod data3 mdl errs = wmod data1 mdl errs) by (unfold wmod, npts; rewrite S3; reflexivity).
  destruct (rg_core_svd _ _ _ _ _ _ Hsvd Hm He E1) as (u & s & v & V1 & Ls & C1).
  destruct (rg_core_svd _ _ _ _ _ _ Hsvd M2 HE2 E2) as (u' & s' & v' & V2 & _ & C2).
  rewrite W2, V1 in V2. injection V2 as <- <- <-.
  assert (V3 : svd (wmod data3 mdl errs) = Ok (u, s, v)) by (rewrite W3; exact V1).
  destruct (rg_core_run svd data3 mdl errs rcond u s v M3 HE3 V3 (Hsvd _ _ _ _ V3) Ls) as (c3 & E3 & C3).
  exists (rg_p c3). unfold regress. rewrite E3. split; [reflexivity|]. destruct (co_p _ _ _ _ _ _ _ _ C3) as [P3 Q3]. split; [exact P3|].
  intros i. rewrite Q3, (proj2 (co_p _ _ _ _ _ _ _ _ C1)), (proj2 (co_p _ _ _ _ _ _ _ _ C2)). unfold pspec. rewrite N2, N3.
  rewrite <- !rsum_scal, <- rsum_plus. apply rsum_ext. intros q _.
  replace (rsum (npts data1) (fun t => at2 v q t * bpt data3 errs t)) with
    (a * rsum (npts data1) (fun t => at2 v q t * bpt data1 errs t) + b * rsum (npts data1) (fun t => at2 v q t * bpt data2 errs t)); [ring|].
  rewrite <- !rsum_scal, <- rsum_plus. apply rsum_ext. intros t Ht. unfold bpt. rewrite Hd by auto. unfold Rdiv. ring.
Qed.

(** ** cases *)
(* five points of t^2: the fit of degree 2 is t^2 everywhere between the knots *)
Lemma good5 lo : Forall (fun b => bto (shp b) [] = true) lo -> good_data k3 x5 y5 None lo [] [] [5%nat].
Proof.
  intros H. split; [exact k3_incr|]. split; [cbn; lia|]. split; [apply conf5; auto|]. split; [cbn; lia|]. intros; cbn; lra.
Qed.
Example C113_case : exists p, splfit gbanded gdense k3 x5 y5 None 2 None [scalar 0] [] false ExNone = Ok p /\
  forall t, 0 <= t <= 2 -> pw_call p [] t = Ok (t ^ 2).
Proof.
  destruct gauss_meets_specs as (G3 & G4 & G5 & _). destruct gsolveh_meets_specs as [G1 _].
  destruct C59_case as (p & F & E & _). exists p. split; [exact E|]. intros t Ht.
  assert (RG : forall v, datum x5 v -> nth 0 k3 0 <= v <= nth (length k3 - 1) k3 0) by (intros v Dv; apply x5_range in Dv; cbn; lra).
  assert (HK : fit_knots (datum x5) k3 k3).
  { exists [], []. rewrite app_nil_r. split; [reflexivity|]. split; left; (split; [reflexivity|]); intros v Dv; apply RG in Dv; lra. }
  apply (C113_splfit_reproduces gbanded gdense G3 k3 x5 y5 None 2 None [scalar 0] [] ExNone 1 1 p [] [5%nat] k3 [] (good5 [scalar 0] ltac:(repeat constructor)) eq_refl ltac:(lia) E HK ltac:(constructor)) with (G := fun t => t ^ 2).
  - apply dense_determined; [exact k3_incr|]. apply dense5. reflexivity.
  - exists (fun k => match k with O => [0; 0; 1] | _ => [1; 2; 1] end). split; [split|].
    + intros [|[|q]] Hq; [| |cbn in Hq; lia]; (split; [reflexivity|]); intros u _; cbn -[pow]; unfold peval; cbn -[pow]; ring.
    + intros [|q] Hq; [|cbn in Hq; lia]. apply joined_tay. intros [|[|k]] Hk; [| |cbn in Hk; lia]; cbn; ring.
    + split; [apply bc_met_tay; intros [|j] Hj; [cbn; unfold bget; cbn; ring|cbn in Hj; lia]|intros j Hj; cbn in Hj; lia].
  - intros u Hu. change (size [5%nat]) with 5%nat in Hu. unfold dX, dY. destruct u as [|[|[|[|[|u]]]]]; try lia; cbn; unfold bget; cbn; lra.
  - unfold in_knots. cbn. lra.
Qed.

(* four points off every polyline through (0, 4): plfit and splfit of degree 1 agree, both go through (1, 2) and (2, 7) *)
Lemma good3 lo : Forall (fun b => bto (shp b) [] = true) lo -> good_data k3 x4d y4d None lo [] [] [4%nat].
Proof.
  intros H. split; [exact k3_incr|]. split; [cbn; lia|]. split; [apply conf3; auto|]. split; [cbn; lia|]. intros; cbn; lra.
Qed.
Lemma knots3 : fit_knots (datum x4d) k3 k3.
Proof.
  exists [], []. rewrite app_nil_r. split; [reflexivity|]. split; left; (split; [reflexivity|]); intros v Dv; apply data3 in Dv; cbn; lra.
Qed.
Lemma dense3 : dense_points 1 k3 4 (dX x4d [4%nat]).
Proof.
  intros q Hq. destruct q as [|[|q]]; [| |cbn in Hq; lia].
  - exists (fun i => INR i). split; [|split].
    + intros [|[|i]] Hi; cbn; lra || lia.
    + intros [|[|i]] [|[|j]] Hij; try lia; cbn; lra.
    + intros [|[|i]] Hi; [exists 0%nat|exists 1%nat|lia]; (split; [lia|]); unfold dX; cbn; lra.
  - exists (fun i => 1 + INR i). split; [|split].
    + intros [|[|i]] Hi; cbn; lra || lia.
    + intros [|[|i]] [|[|j]] Hij; try lia; cbn; lra.
    + intros [|[|i]] Hi; [exists 2%nat|exists 3%nat|lia]; (split; [lia|]); unfold dX; cbn; lra.
Qed.
Example C113_case_same : forall inv, inv_spec inv -> exists p p',
  plfit inv gsolveh gbanded gdense k3 x4d y4d None [scalar 4] [] false ExNone = Ok p /\
  splfit gbanded gdense k3 x4d y4d None 1 None [scalar 4] [] false ExNone = Ok p' /\
  (forall t, 0 <= t <= 2 -> exists v, pw_call p [] t = Ok v /\ pw_call p' [] t = Ok v) /\ pw_call p' [] 1 = Ok 2 /\ pw_call p' [] 2 = Ok 7.
Proof.
  intros inv Hinv. destruct gauss_meets_specs as (G3 & G4 & G5 & _). destruct gsolveh_meets_specs as [G1 _].
  destruct (C58_case inv Hinv) as (p & F & v & E & C & _ & F0 & F1 & F2 & _).
  assert (RG : forall v, datum x4d v -> nth 0 k3 0 <= v <= nth (length k3 - 1) k3 0) by (intros u Du; apply data3 in Du; cbn; lra).
  destruct (good3 [scalar 4] ltac:(repeat constructor)) as (A1 & A2 & A3 & A4 & A5).
  destruct (C59_exists_dense gbanded gdense G3 k3 x4d y4d None 1 None [scalar 4] [] ExNone [] [4%nat] G5 A1 A2 A3 ltac:(cbn; lia)
    A4 A5 ltac:(cbn; lia) ltac:(cbn; lia) ltac:(cbn; lia) ltac:(cbn; lia)) as [p' E'].
  { left. intros u Du. apply RG. auto. } { right; reflexivity. } { cbn; lia. }
  { intros K HK. apply knots_same in HK as ->; auto. apply dense3. }
  exists p, p'. split; [exact E|]. split; [exact E'|].
  assert (SA : forall t, 0 <= t <= 2 -> exists v, pw_call p [] t = Ok v /\ pw_call p' [] t = Ok v).
  { intros t Ht. apply (C113_plfit_is_splfit inv gsolveh gbanded gdense Hinv G1 G3 k3 x4d y4d None [scalar 4] [] ExNone 0 0 ExNone 0 0 p p' [] [4%nat] k3 []); auto; try lia.
    - apply good3. repeat constructor.
    - apply knots3.
    - constructor.
    - apply dense_determined; [exact k3_incr|apply dense3]. }
  split; [exact SA|]. split.
  - destruct (SA 1 ltac:(lra)) as (w & W1 & W2). rewrite W2, <- W1, C, F1. reflexivity.
  - destruct (SA 2 ltac:(lra)) as (w & W1 & W2). rewrite W2, <- W1, C, F2. reflexivity.
Qed.
(* periodic data of a tent *)
Definition ytent : nd R := vec 0 [1; 3; 3; 1].
Definition tent (t : R) : R := 3 - 2 * Rabs (2 * frac_part (t / 2) - 1).
Lemma tent_at k t : IZR k <= t / 2 < IZR k + 1 -> tent t = 3 - 2 * Rabs (t - 2 * IZR k - 1).
Proof.
  intros H. unfold tent, frac_part, Int_part. rewrite <- (tech_up (t / 2) (k + 1)) by (rewrite plus_IZR; lra).
  replace (k + 1 - 1)%Z with k by lia. f_equal. f_equal. f_equal. lra.
Qed.
Lemma tent_polyline : polyline k3 (fun i => if (i =? 1)%nat then 3 else 1) tent.
Proof.
  intros [|[|q]] t Hq Ht; [| |cbn in Hq; lia]; cbn in Ht; unfold seg; cbn.
  - rewrite (tent_at 0) by lra. rewrite Rabs_left1 by lra. lra.
  - destruct (Rlt_le_dec t 2) as [L|L].
    + rewrite (tent_at 0) by lra. rewrite Rabs_right by lra. lra.
    + rewrite (tent_at 1) by lra. rewrite Rabs_left1 by lra. lra.
Qed.
Lemma tent_periodic : periodic 2 tent.
Proof.
  intros t. destruct (base_Int_part (t / 2)) as [B1 B2]. rewrite (tent_at (Int_part (t / 2)) t) by lra.
  rewrite (tent_at (Int_part (t / 2) + 1) (t + 2)); rewrite plus_IZR; [f_equal; f_equal; f_equal; lra|lra].
Qed.
Example C113_case_periodic : forall inv, inv_spec inv -> exists p, plfit inv gsolveh gbanded gdense k3 x4d ytent None [] [] true ExNone = Ok p /\
  pw_call p [] (-1/2) = Ok 2 /\ pw_call p [] (9/4) = Ok (3/2).
Proof.
  intros inv Hinv. destruct gauss_meets_specs as (G3 & G4 & G5 & G6).
  assert (Cf : conform x4d ytent None [] [] [] [4%nat]).
  { constructor; auto; [|discriminate]. exists [4%nat]. repeat split; reflexivity. }
  assert (Dt : forall v F, polyline k3 v F -> periodic (nth (length k3 - 1) k3 0 - nth 0 k3 0) F -> (forall t, (t < size [4%nat])%nat -> F (dX x4d [4%nat] t) = 0) ->
    forall k, (k < length k3)%nat -> v k = 0).
  { intros v F PL PT Z k Hk. change (size [4%nat]) with 4%nat in Z.
    pose proof (Z 0%nat ltac:(lia)) as Z0. pose proof (Z 1%nat ltac:(lia)) as Z1. pose proof (Z 3%nat ltac:(lia)) as Z3.
    unfold dX in Z0, Z1, Z3. cbn in Z0, Z1, Z3, Hk.
    rewrite (PL 0%nat) in Z0 by (cbn; lia || lra). rewrite (PL 0%nat) in Z1 by (cbn; lia || lra). rewrite (PL 1%nat) in Z3 by (cbn; lia || lra).
    unfold seg in *. cbn in *. destruct k as [|[|[|k]]]; lra || lia. }
  destruct (C58_periodic_exists inv gsolveh gbanded gdense Hinv G3 G4 k3 x4d ytent None [] [4%nat] G5 G6 k3_incr ltac:(cbn; lia) Cf ltac:(cbn; lia) ltac:(cbn; lia)) as [p E].
  { intros; cbn; lra. } { exact Dt. }
  assert (GD : good_data k3 x4d ytent None [] [] [] [4%nat]).
  { split; [exact k3_incr|]. split; [cbn; lia|]. split; [exact Cf|]. split; [cbn; lia|]. intros; cbn; lra. }
  assert (H : forall t, pw_call p [] t = Ok (tent t)).
  { assert (T2 : nth (length k3 - 1) k3 0 - nth 0 k3 0 = 2) by (cbn; lra).
    refine (C113_plfit_periodic inv gsolveh gbanded gdense Hinv G3 G4 k3 x4d ytent None p [] [4%nat] [] GD E ltac:(constructor) Dt _ tent tent_polyline _ (or_intror _)).
    - rewrite T2. exact tent_periodic.
    - intros t Ht. change (size [4%nat]) with 4%nat in Ht. unfold dX, dY.
      destruct t as [|[|[|[|t]]]]; try lia; cbn; unfold bget; cbn.
      + rewrite (tent_at 0), Rabs_left1 by lra. lra.
      + rewrite (tent_at 0), Rabs_right by lra. lra.
      + rewrite (tent_at 0), Rabs_right by lra. lra.
      + rewrite (tent_at 1), Rabs_left1 by lra. lra. }
  exists p. split; [exact E|]. rewrite !H. split; f_equal.
  - rewrite (tent_at (-1)) by lra. rewrite Rabs_right by lra. lra.
  - rewrite (tent_at 1) by lra. rewrite Rabs_left1 by lra. lra.
Qed.
(* two independent components, data 2 m_0 - m_1 *)
Definition r2_u : arr2 R := Arr2 2 2 (fun i q => if (i =? q)%nat then 1 else 0).
Definition r2_v : arr2 R := Arr2 2 2 (fun q t => match q, t with O, O => 3/5 | S _, O => -(4/5) | O, S _ => 4/5 | S _, S _ => 3/5 end).
Definition r2_svd (m : arr2 R) : res (arr2 R * list R * arr2 R) :=
  if Nat.eq_dec (nr m) 2 then if Nat.eq_dec (SolvePer.nc m) 2 then
  if Req_EM_T (at2 m 0 0) 3 then if Req_EM_T (at2 m 0 1) 4 then if Req_EM_T (at2 m 1 0) (-4) then if Req_EM_T (at2 m 1 1) 3 then Ok (r2_u, [5; 5], r2_v)
  else Err LinAlgError else Err LinAlgError else Err LinAlgError else Err LinAlgError else Err LinAlgError else Err LinAlgError.
Lemma r2_svd_sound : svd_sound r2_svd.
Proof.
  intros m u s v H. unfold r2_svd in H.
  repeat match type of H with context [if ?c then _ else _] => destruct c; [|discriminate] end.
  injection H as <- <- <-. unfold is_svd. rewrite e, e0. cbn [Nat.min nr SolvePer.nc length r2_u r2_v].
  split; [auto|].
  split; [intros [|[|q]] Hq; cbn; try lra; lia|].
  split; [intros [|[|q]] [|[|q']] Hq; cbn; try lra; lia|].
  split; [intros [|[|q]] [|[|q']] Hq Hq'; cbn; try lra; lia|].
  split; [intros [|[|q]] [|[|q']] Hq Hq'; cbn; try lra; lia|].
  intros [|[|i]] [|[|t]] Hi Ht; cbn; try lia; rewrite ?e1, ?e2, ?e3, ?e4; cbn; lra.
Qed.
Definition r2_mdl : list (nd R) := [vec 0 [3; 4]; vec 0 [-4; 3]].
Definition r2_data : nd R := vec 0 [10; 5].
Definition r2_c (i : nat) : R := if (i =? 0)%nat then 2 else -1.
Example C113_case_regress : exists p, regress r2_svd r2_data r2_mdl None None = Ok p /\ get p [0%nat] = 2 /\ get p [1%nat] = -1.
Proof.
  assert (HM : mdl_ok r2_data r2_mdl) by (intros mi [<-|[<-|[]]]; reflexivity).
  assert (W : forall i t, at2 (wmod r2_data r2_mdl None) i t = mpt r2_data r2_mdl i t / ept None t) by (intros; apply wmod_at; exact I).
  assert (SV : r2_svd (wmod r2_data r2_mdl None) = Ok (r2_u, [5; 5], r2_v)).
  { unfold r2_svd.
    destruct (Nat.eq_dec (nr (wmod r2_data r2_mdl None)) 2) as [|n]; [|exfalso; apply n; reflexivity].
    destruct (Nat.eq_dec (SolvePer.nc (wmod r2_data r2_mdl None)) 2) as [|n]; [|exfalso; apply n; reflexivity].
    rewrite !W.
    assert (A0 : mpt r2_data r2_mdl 0 0 / ept None 0 = 3) by (cbn; field).
    assert (A1 : mpt r2_data r2_mdl 0 1 / ept None 1 = 4) by (cbn; field).
    assert (A3 : mpt r2_data r2_mdl 1 0 / ept None 0 = -4) by (cbn; field).
    assert (A4 : mpt r2_data r2_mdl 1 1 / ept None 1 = 3) by (cbn; field).
    rewrite A0, A1, A3, A4.
    repeat match goal with |- context [Req_EM_T ?a ?a] => destruct (Req_EM_T a a); [|lra] end. reflexivity. }
  destruct (rg_core_run r2_svd _ r2_mdl None None _ _ _ HM I SV (r2_svd_sound _ _ _ _ SV)) as (c & Hc & _); [cbn; lia|].
  exists (rg_p c). assert (E : regress r2_svd r2_data r2_mdl None None = Ok (rg_p c)) by (unfold regress; rewrite Hc; reflexivity).
  split; [exact E|].
  destruct (C113_regress_reproduces r2_svd r2_data r2_mdl None None (rg_p c) r2_c r2_svd_sound HM I) as (_ & _ & H); auto.
  - intros m u s v _ H. unfold r2_svd in H.
    repeat match type of H with context [if ?c then _ else _] => destruct c; [|discriminate] end.
    injection H as <- <- <-. assert (RC : rcond_of None * 5 < 5) by (pose proof (rcond_range None); lra).
    intros [|[|q]] Hq; cbn in Hq; try lia; right; unfold kept; cbn [nth]; exact RC.
  - intros [|[|t]] Ht; [cbn; unfold bget, r2_c; cbn; lra|cbn; unfold bget, r2_c; cbn; lra|cbn in Ht; lia].
  - assert (Ind : forall q, (forall t, (t < npts r2_data)%nat -> mval r2_data r2_mdl q t = 0) -> forall i, (i < length r2_mdl)%nat -> q i = 0).
    { intros q Z. pose proof (Z 0%nat ltac:(cbn; lia)) as Z0. pose proof (Z 1%nat ltac:(cbn; lia)) as Z1. cbn in Z0, Z1. unfold mpt, bget in Z0, Z1. cbn in Z0, Z1.
      intros [|[|i]] Hi; [lra|lra|cbn in Hi; lia]. }
    split; [apply (H Ind 0%nat); cbn; lia|apply (H Ind 1%nat); cbn; lia].
Qed.

Print Assumptions C113_splfit_linear.
Print Assumptions C113_plfit_is_splfit.
Print Assumptions C113_regress_linear.
