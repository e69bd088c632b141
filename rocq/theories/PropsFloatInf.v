(* C133: polynomials and piecewise polynomials at nan and the infinities.  npplus/pwpoly.py:317-321, 1477-1481, 1541-1547. *)
From Coq Require Import List Arith ZArith Lia Bool Reals Lra.
From Flocq Require Import Core BinarySingleNaN.
From Verif Require Import Num PyBase NdArray NdLemmas Poly PwPoly Float64 PropsFloat FloatErr PropsFloatPw PropsFloatMax PropsFloatPcwise FloatElem PropsFloatPer.
Import ListNotations.

(* PwPoly.__call__ with nd=0 at one x, pwpoly.py:317-321, with numpy's order of the doubles in searchsorted (nan last) *)
Definition fpw_val (p : pwpoly f64) (comp : list nat) (x : f64) : f64 :=
  let ix := fsearch (pxk p) x in horner (ccol (pc p) comp ix) (nsub x (nth ix (pxk0 p) n0)).
(* for other numbers than nan it is the call modelled in PwPoly.v *)
Lemma fsearch_ssearch xv x : isnan x = false -> fsearch xv x = ssearch xv x.
Proof. intros N. induction xv as [|a xv IH]; cbn [fsearch ssearch]; [auto|]. unfold fbefore. rewrite N. cbn [andb]. rewrite orb_false_r, IH. reflexivity. Qed.
Theorem C133_model p comp x : pcl p = Pw -> isnan x = false -> fpw_val p comp x = pw_val p comp x.
Proof. intros E N. unfold fpw_val, pw_val, pw_reduce. rewrite E. rewrite fsearch_ssearch by auto. reflexivity. Qed.
Print Assumptions C133_model.

(** ** Arithmetic with nan and infinities *)
Lemma mul_nan_l (x y : f64) : isnan x = true -> isnan (nmul x y) = true.
Proof. destruct x; try discriminate. destruct y; reflexivity. Qed.
Lemma mul_nan_r (x y : f64) : isnan y = true -> isnan (nmul x y) = true.
Proof. destruct y; try discriminate. destruct x; reflexivity. Qed.
Lemma add_nan_l (x y : f64) : isnan x = true -> isnan (nadd x y) = true.
Proof. destruct x; try discriminate. destruct y; reflexivity. Qed.
Lemma add_nan_r (x y : f64) : isnan y = true -> isnan (nadd x y) = true.
Proof. destruct y; try discriminate. destruct x; reflexivity. Qed.
Lemma sub_nan_l (x y : f64) : isnan x = true -> isnan (nsub x y) = true.
Proof. destruct x; try discriminate. destruct y; reflexivity. Qed.
Lemma sub_inf s (y : f64) : fin y -> nsub (B754_infinity s) y = B754_infinity s.
Proof. destruct y; try discriminate; reflexivity. Qed.
Lemma add_inf_l s (y : f64) : fin y -> nadd (B754_infinity s) y = B754_infinity s.
Proof. destruct y; try discriminate; reflexivity. Qed.
Lemma add_inf_r s (y : f64) : fin y -> nadd y (B754_infinity s) = B754_infinity s.
Proof. destruct y; try discriminate; reflexivity. Qed.
Lemma mul_inf_inf s t : nmul (B754_infinity s : f64) (B754_infinity t) = B754_infinity (xorb s t).
Proof. reflexivity. Qed.
Lemma mul_fin_inf (x : f64) t : fin x -> val x <> 0%R -> nmul x (B754_infinity t) = B754_infinity (xorb (Rltb (val x) 0) t).
Proof.
  intros F N. destruct x as [s|s| |s m e b]; try discriminate F; [exfalso; apply N; reflexivity|].
  assert (S : Rltb (val (B754_finite s m e b)) 0 = s).
  { pose proof (fsign_val _ F) as P. cbn [Bsign] in P. destruct s; [destruct (Rltb_spec (val (B754_finite true m e b)) 0)|destruct (Rltb_spec (val (B754_finite false m e b)) 0)]; auto; lra. }
  rewrite S. reflexivity.
Qed.
Lemma mul_0_inf (x : f64) t : fin x -> val x = 0%R -> isnan (nmul x (B754_infinity t)) = true.
Proof.
  intros F N. destruct x as [s|s| |s m e b]; try discriminate F; [reflexivity|]. exfalso. unfold val in N. cbn [B2R] in N.
  apply eq_0_F2R in N. destruct s; discriminate N.
Qed.

(** ** polyfun *)
Lemma loop_nan x : forall r (p : f64), isnan p = true -> isnan (fold_left (fun p cn => nadd (nmul p x) cn) r p) = true.
Proof. induction r as [|c r IH]; intros p N; cbn [fold_left]; [exact N|]. apply IH, add_nan_l, mul_nan_l, N. Qed.
Lemma loop_inf s : forall (r : list f64) t, Forall fin r ->
  fold_left (fun p cn => nadd (nmul p (B754_infinity s)) cn) r (B754_infinity t) = B754_infinity (xorb t (s && Nat.odd (length r))).
Proof.
  induction r as [|c r IH]; intros t F; cbn [fold_left length].
  - cbn [Nat.odd Nat.even negb]. unfold Nat.odd. cbn. rewrite andb_false_r, xorb_false_r. reflexivity.
  - inv F. rewrite mul_inf_inf, add_inf_l by auto. rewrite IH by auto. rewrite Nat.odd_succ, <- Nat.negb_odd. f_equal. destruct t, s, (Nat.odd (length r)); reflexivity.
Qed.
Lemma top_two (c : list f64) : (2 <= length c)%nat -> exists b r, rev c = last c n0 :: b :: r /\ length c = S (S (length r)) /\ (Forall fin c -> fin (last c n0) /\ fin b /\ Forall fin r).
Proof.
  intros L. destruct (rev c) as [|a [|b r]] eqn:E; apply (f_equal (@length _)) in E as E'; rewrite rev_length in E'; cbn [length] in E'; try lia.
  exists b, r. assert (C : c = List.app (rev (b :: r)) [a]) by (rewrite <- (rev_involutive c), E; reflexivity).
  assert (La : last c n0 = a) by (rewrite C; apply last_last). rewrite La. split; [reflexivity|]. split; [exact E'|].
  intros F. assert (G : Forall fin (a :: b :: r)) by (rewrite <- E; apply Forall_rev; exact F). inv G. match goal with H : Forall fin (b :: r) |- _ => inv H end. auto.
Qed.
(* a polynomial of degree 1 or more is nan at nan; a constant is itself there *)
Theorem C133_polyfun_nan (c : list f64) x : isnan x = true -> (2 <= length c)%nat -> exists v, polyfun c x = Ok v /\ isnan v = true.
Proof.
  intros N L. destruct (top_two c L) as (b & r & E & _ & _). exists (horner c x). split; [destruct c; [cbn in L; lia|reflexivity]|].
  unfold horner. rewrite E. cbn [polysetup]. apply loop_nan, add_nan_r, mul_nan_r, N.
Qed.
Theorem C133_polyfun_constant (c x : f64) : isnan c = false -> exists v, polyfun [c] x = Ok v /\ (v =? c)%K = true.
Proof.
  intros N. exists (nadd c n0). split; [reflexivity|]. destruct (is_finite c) eqn:F.
  - destruct c as [t|t| |t m e b]; try discriminate F; [destruct t; reflexivity|].
    change (nadd (B754_finite t m e b) n0) with (B754_finite t m e b : f64). rewrite feq_val by exact F. unfold Reqb. destruct (Req_EM_T _ _); [reflexivity|congruence].
  - destruct c as [t|[|]| |t m e b]; try discriminate F; try discriminate N; reflexivity.
Qed.
(* at the infinities: the limit, if the highest coefficient is not 0; else nan, whatever the polynomial *)
Theorem C133_polyfun_inf (c : list f64) s : (2 <= length c)%nat -> Forall fin c -> val (last c n0) <> 0%R ->
  polyfun c (B754_infinity s) = Ok (B754_infinity (xorb (Rltb (val (last c n0)) 0) (s && Nat.odd (length c - 1)))).
Proof.
  intros L F N. destruct (top_two c L) as (b & r & E & Lr & G). destruct (G F) as (Fa & Fb & Fr).
  assert (H : polyfun c (B754_infinity s) = Ok (horner c (B754_infinity s))) by (destruct c; [cbn in L; lia|reflexivity]). rewrite H. f_equal.
  unfold horner. rewrite E. cbn [polysetup]. rewrite mul_fin_inf, add_inf_r by auto. rewrite loop_inf by auto. f_equal. rewrite Lr. replace (S (S (length r)) - 1)%nat with (S (length r)) by lia.
  rewrite Nat.odd_succ, <- Nat.negb_odd. destruct (Rltb (val (last c n0)) 0), s, (Nat.odd (length r)); reflexivity.
Qed.
Theorem C133_polyfun_inf_nan (c : list f64) s : (2 <= length c)%nat -> Forall fin c -> val (last c n0) = 0%R -> exists v, polyfun c (B754_infinity s) = Ok v /\ isnan v = true.
Proof.
  intros L F N. destruct (top_two c L) as (b & r & E & Lr & G). destruct (G F) as (Fa & Fb & Fr). exists (horner c (B754_infinity s)). split; [destruct c; [cbn in L; lia|reflexivity]|].
  unfold horner. rewrite E. cbn [polysetup]. apply loop_nan, add_nan_r, mul_0_inf; auto.
Qed.
Print Assumptions C133_polyfun_inf.

(** ** PwPoly *)
Lemma last_piece xv (x : f64) : Forall fin xv -> isnan x = true \/ x = B754_infinity false -> fsearch xv x = length xv.
Proof.
  intros F H. induction F as [|a xv Fa F IH]; [reflexivity|]. cbn [fsearch length]. assert (B : fbefore a x = true).
  { destruct a as [t|t| |t m e b]; try discriminate Fa; destruct H as [H| ->]; [destruct x; try discriminate H|destruct t|destruct x; try discriminate H|destruct t]; reflexivity. }
  rewrite B, IH. reflexivity.
Qed.
Lemma first_piece xv : Forall fin xv -> fsearch xv (B754_infinity true) = 0%nat.
Proof. intros F. destruct F as [|a xv Fa F]; [reflexivity|]. cbn [fsearch]. destruct a as [t|t| |t m e b]; try discriminate Fa; destruct t; reflexivity. Qed.
Lemma pieces (p : pwpoly f64) : fpw p -> ck (pc p) = S (length (pxk p)).
Proof. intros W. pose proof (fp_len _ W) as L. pose proof (fp_nk _ W) as K. unfold pxk in *. destruct (pxk0 p); cbn [tl length] in *; lia. Qed.
(* p(nan): nan if the degree is 1 or more, the constant of the last piece if it is 0 *)
Theorem C133_call_nan (p : pwpoly f64) comp x : fpw p -> inb comp (csh (pc p)) -> isnan x = true ->
  ((2 <= cn (pc p))%nat -> isnan (fpw_val p comp x) = true) /\
  (forall v, ccol (pc p) comp (length (pxk p)) = [v] -> isnan v = false -> (fpw_val p comp x =? v)%K = true).
Proof.
  intros W C N. pose proof (pieces p W) as P. unfold fpw_val. rewrite (last_piece _ _ (fp_fin _ W)) by auto. cbn zeta. split.
  - intros D. pose proof (fp_col _ W comp (length (pxk p)) C ltac:(lia)) as L.
    destruct (C133_polyfun_nan (ccol (pc p) comp (length (pxk p))) (nsub x (nth (length (pxk p)) (pxk0 p) n0)) (sub_nan_l _ _ N) ltac:(lia)) as (v & E & V).
    unfold polyfun in E. destruct (ccol (pc p) comp (length (pxk p))); [discriminate|]. injection E as <-. exact V.
  - intros v E V. rewrite E. destruct (C133_polyfun_constant v (nsub x (nth (length (pxk p)) (pxk0 p) n0)) V) as (w & Ew & H). injection Ew as <-. exact H.
Qed.
Print Assumptions C133_call_nan.
(* p(-inf) and p(inf): the limit of the first or last piece if its highest coefficient is not 0, else nan *)
Theorem C133_call_inf (p : pwpoly f64) comp (s : bool) : fpw p -> inb comp (csh (pc p)) -> (2 <= cn (pc p))%nat ->
  let c := ccol (pc p) comp (if s then 0%nat else length (pxk p)) in Forall fin c -> fin (nth (if s then 0%nat else length (pxk p)) (pxk0 p) n0) ->
  (val (last c n0) <> 0%R -> fpw_val p comp (B754_infinity s) = B754_infinity (xorb (Rltb (val (last c n0)) 0) (s && Nat.odd (cn (pc p) - 1)))) /\
  (val (last c n0) = 0%R -> isnan (fpw_val p comp (B754_infinity s)) = true).
Proof.
  intros W C D c F K. pose proof (pieces p W) as P. assert (L : length c = cn (pc p)) by (apply (fp_col _ W); auto; destruct s; lia).
  assert (E : fpw_val p comp (B754_infinity s) = horner c (B754_infinity s)).
  { unfold fpw_val, c. destruct s; [rewrite (first_piece _ (fp_fin _ W))|rewrite (last_piece _ _ (fp_fin _ W)) by auto]; cbn zeta; rewrite sub_inf by exact K; reflexivity. }
  rewrite E, <- L. split; intros N.
  - pose proof (C133_polyfun_inf c s ltac:(lia) F N) as H. unfold polyfun in H. destruct c; [discriminate|]. injection H as H. exact H.
  - destruct (C133_polyfun_inf_nan c s ltac:(lia) F N) as (v & H & V). unfold polyfun in H. destruct c; [discriminate|]. injection H as <-. exact V.
Qed.
Print Assumptions C133_call_inf.
(* The polyline of ex_C104, constant beyond its ends, is nan at inf and not its limit 3/10; x^3 - x at -inf. *)
Example C133_case : fpw fx_p /\ (2 <= cn (pc fx_p))%nat /\ isnan (fpw_val fx_p [] (B754_infinity false)) = true /\ isnan (fpw_val fx_p [] B754_nan) = true /\
  (fpw_val fx_p [] (nofZ 7) =? nofZ 3 / nofZ 10)%K = true /\ polyfun [n0; nopp n1; n0; n1 : f64] (B754_infinity true) = Ok (B754_infinity true).
Proof. split; [exact (proj1 ex_C104)|]. split; [cbn; lia|]. split; [vm_compute; reflexivity|]. split; [vm_compute; reflexivity|]. split; [vm_compute; reflexivity|]. vm_compute. reflexivity. Qed.

(** ** PerPwPoly *)
(* PerPwPoly.__call__ with nd=0, pwpoly.py:799-802 *)
Definition fper_val (p : pwpoly f64) (T : f64) (comp : list nat) (x : f64) : f64 :=
  fpw_val (PwP Pw (pxk0 p) (pc p) None) comp (freduce (nth 0 (pxk p) n0) T x).
Lemma fmodulo_nan (x T : f64) : isnan x = true \/ (exists s, x = B754_infinity s) -> isnan (fmodulo x T) = true.
Proof.
  intros H. assert (M : ffmod x T = B754_nan) by (destruct H as [H|[s ->]]; [destruct x; try discriminate H|]; destruct T; reflexivity).
  unfold fmodulo. rewrite M. change ((B754_nan : f64) =? n0)%K with false. change ((B754_nan : f64) <? n0)%K with false. cbn iota zeta. destruct (Bool.eqb _ _); [reflexivity|]. apply add_nan_l. reflexivity.
Qed.
Lemma freduce_nan (x0 T x : f64) : fin x0 -> isnan x = true \/ (exists s, x = B754_infinity s) -> isnan (freduce x0 T x) = true.
Proof.
  intros F H. unfold freduce. apply add_nan_r, fmodulo_nan. destruct H as [H|[s ->]]; [left; now apply sub_nan_l|right; exists s; now apply sub_inf].
Qed.
(* a periodic function has no limits: it is nan at nan and the infinities, or the constant of its last column if of degree 0 *)
Theorem C133_call_periodic (p : pwpoly f64) T comp x : fpw (PwP Pw (pxk0 p) (pc p) None) -> inb comp (csh (pc p)) -> isnan x = true \/ (exists s, x = B754_infinity s) ->
  ((2 <= cn (pc p))%nat -> isnan (fper_val p T comp x) = true) /\
  (forall v, ccol (pc p) comp (length (pxk p)) = [v] -> isnan v = false -> (fper_val p T comp x =? v)%K = true).
Proof.
  intros W C H. assert (F : fin (nth 0 (pxk p) n0)).
  { pose proof (fp_fin _ W) as F. pose proof (fp_nk _ W) as L. unfold pxk in *. cbn [pxk0] in *. rewrite Forall_forall in F. apply F, nth_In. lia. }
  apply (C133_call_nan (PwP Pw (pxk0 p) (pc p) None) comp (freduce (nth 0 (pxk p) n0) T x) W C). apply freduce_nan; auto.
Qed.
Print Assumptions C133_call_periodic.
(* for finite x it is the call of C127 *)
Theorem C133_periodic_model (p : pwpoly f64) T comp x v : pper p = Some T -> fper_call p comp x = Ok v -> isnan (freduce (nth 0 (pxk p) n0) T x) = false -> fper_val p T comp x = v.
Proof.
  intros E H N. unfold fper_call in H. rewrite E in H. unfold pw_call in H. destruct (pw_ok _) in H; [|discriminate]. cbn [bind] in H. injection H as <-. apply C133_model; auto.
Qed.
Print Assumptions C133_periodic_model.
(* the sawtooth of C127 *)
Example C133_periodic_case : fpw (PwP Pw (pxk0 fx_saw) (pc fx_saw) None) /\ (2 <= cn (pc fx_saw))%nat /\
  isnan (fper_val fx_saw (nsub (flast fx_saw) (nth 0 (pxk fx_saw) n0)) [] (B754_infinity false)) = true /\
  isnan (fper_val fx_saw (nsub (flast fx_saw) (nth 0 (pxk fx_saw) n0)) [] (nofZ 7)) = false.
Proof. split; [exact (fr_pw _ (proj1 C127_extrapolation_refuted))|]. split; [cbn; lia|]. split; vm_compute; reflexivity. Qed.
