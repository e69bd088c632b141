(* C82-C84: shape of the data, covariances and fixed points of levmar
   (npplus/lsqfit.py:159-394). *)
From Coq Require Import List Arith ZArith Bool Lia Reals Lra Classical.
From Verif Require Import Num PyBase NdArray NdLemmas PwPoly RSum SolvePer SolveProofs Gauss LsqModel Levmar LevmarProofs LevmarDescent LevmarTerm PropsRegress PropsLevmar.
Import ListNotations.
Local Open Scope R_scope.

(* ---- C83: the covariance matrix ---- *)
Lemma gram_quad n N (w : nat -> R) (d a : nat -> nat -> R) v :
  (forall i j, (i < n)%nat -> (j < n)%nat -> a i j = rsum N (fun k => w k * d i k * d j k)) ->
  rsum n (fun i => v i * rsum n (fun j => a i j * v j)) = rsum N (fun k => w k * (rsum n (fun i => v i * d i k)) ^ 2).
Proof.
  intros Ha. transitivity (rsum n (fun i => rsum n (fun j => rsum N (fun k => w k * (v i * d i k) * (v j * d j k))))).
  - apply rsum_ext. intros i Hi. rewrite <- rsum_scal. apply rsum_ext. intros j Hj. rewrite Ha by auto.
    rewrite (rsum_ext N (fun k => w k * (v i * d i k) * (v j * d j k)) (fun k => v i * v j * (w k * d i k * d j k))) by (intros; ring).
    rewrite rsum_scal. ring.
  - rewrite (rsum_ext n _ (fun i => rsum N (fun k => w k * (v i * d i k) * rsum n (fun j => v j * d j k)))).
    + rewrite rsum_swap. apply rsum_ext. intros k Hk. rewrite rsum_scal_r.
      rewrite (rsum_scal n (w k) (fun i => v i * d i k)). ring.
    + intros i Hi. rewrite rsum_swap. apply rsum_ext. intros k Hk. rewrite rsum_scal. reflexivity.
Qed.
(* left inverse of a Gram matrix: symmetric, with positive diagonal *)
Lemma inv_gram n N (w : nat -> R) (d a c : nat -> nat -> R) :
  (forall k, (k < N)%nat -> 0 < w k) ->
  (forall i j, (i < n)%nat -> (j < n)%nat -> a i j = rsum N (fun k => w k * d i k * d j k)) ->
  (forall i j, (i < n)%nat -> (j < n)%nat -> rsum n (fun k => c i k * a k j) = if (i =? j)%nat then 1 else 0) ->
  (forall i j, (i < n)%nat -> (j < n)%nat -> c i j = c j i) /\ (forall i, (i < n)%nat -> 0 < c i i).
Proof.
  intros Hw Ha Hc.
  assert (Sa : forall i j, (i < n)%nat -> (j < n)%nat -> a i j = a j i).
  { intros i j Hi Hj. rewrite !Ha by auto. apply rsum_ext. intros. ring. }
  destruct (right_left n c a Hc) as [_ AC].
  assert (Sc : forall i m, (i < n)%nat -> (m < n)%nat -> c m i = c i m).
  { intros i m Hi Hm. set (ct := fun x y => c y x). change (ct i m = c i m).
    transitivity (rsum n (fun j => ct i j * rsum n (fun k => a j k * c k m))).
    - rewrite (rsum_ext n _ (fun j => (if (m =? j)%nat then 1 else 0) * ct i j)).
      + symmetry. apply (rsum_pick n m (fun j => ct i j) Hm).
      + intros j Hj. rewrite AC by auto. rewrite (Nat.eqb_sym j m). ring.
    - rewrite (mat_assoc n ct a (fun k => c k m) i).
      rewrite (rsum_ext n _ (fun k => (if (i =? k)%nat then 1 else 0) * c k m)).
      + apply (rsum_pick n i (fun k => c k m) Hi).
      + intros k Hk. f_equal. rewrite (Nat.eqb_sym i k), <- (AC k i Hk Hi). apply rsum_ext. intros j Hj. unfold ct. rewrite (Sa j k) by auto. ring. }
  split; [intros; apply Sc; auto|]. intros i Hi.
  assert (Q : c i i = rsum N (fun k => w k * (rsum n (fun l => c i l * d l k)) ^ 2)).
  { rewrite <- (gram_quad n N w d a (c i) Ha).
    rewrite (rsum_ext n _ (fun l => (if (i =? l)%nat then 1 else 0) * c i l)).
    - symmetry. apply (rsum_pick n i (c i) Hi).
    - intros l Hl. rewrite <- (Hc i l Hi Hl), Rmult_comm. f_equal. apply rsum_ext. intros j Hj. rewrite (Sa l j) by auto. ring. }
  assert (P : forall k, (k < N)%nat -> 0 <= w k * (rsum n (fun l => c i l * d l k)) ^ 2).
  { intros k Hk. apply Rmult_le_pos; [left; apply Hw, Hk|apply pow2_ge_0]. }
  destruct (Rtotal_order 0 (c i i)) as [|HH]; [assumption|exfalso].
  assert (Z : rsum N (fun k => w k * (rsum n (fun l => c i l * d l k)) ^ 2) = 0).
  { rewrite <- Q. pose proof (rsum_nonneg N _ P) as P'. rewrite <- Q in P'. lra. }
  assert (Z2 : forall k, (k < N)%nat -> rsum n (fun l => c i l * d l k) = 0).
  { intros k Hk. pose proof (rsum_nonneg_0 N _ P Z k Hk) as Z'. cbn beta in Z'. apply Rmult_integral in Z' as [Z'|Z']; [specialize (Hw k Hk); lra|].
    destruct (Req_dec (rsum n (fun l => c i l * d l k)) 0); auto. exfalso. apply (pow_nonzero _ 2) in H. lra. }
  specialize (Hc i i Hi Hi). rewrite Nat.eqb_refl in Hc.
  rewrite (rsum_ext n _ (fun l => rsum N (fun k => w k * d i k * (c i l * d l k)))) in Hc.
  - rewrite rsum_swap in Hc. rewrite rsum_zero in Hc; [lra|]. intros k Hk. rewrite rsum_scal, Z2 by auto. ring.
  - intros l Hl. rewrite Ha by auto. rewrite <- rsum_scal. apply rsum_ext. intros. ring.
Qed.

(* the weighted normal matrix of partial derivatives D *)
Definition gram (data : nd R) (kw : @lmkw R) (D : nd R) (i j : nat) : R :=
  rsum (npts data) (fun t => get D [i; t] * get D [j; t] / leps data kw t ^ 2).
(* c is the covariance matrix for partial derivatives D: zero for fixed parameters, and the
   inverse of the normal matrix for the others *)
Definition is_cov (data : nd R) (p0 : list R) (kw : @lmkw R) (D : nd R) (c : arr2 R) : Prop :=
  let n := length p0 in
  nr c = n /\ SolvePer.nc c = n /\
  (forall i j, (i < n)%nat -> (j < n)%nat -> fixed_par n (k_pfix kw) i \/ fixed_par n (k_pfix kw) j -> at2 c i j = 0) /\
  (forall i j, (i < n)%nat -> (j < n)%nat -> ~ fixed_par n (k_pfix kw) i -> ~ fixed_par n (k_pfix kw) j ->
     rsum n (fun l => at2 c i l * gram data kw D l j) = if (i =? j)%nat then 1 else 0) /\
  (forall i j, (i < n)%nat -> (j < n)%nat -> at2 c i j = at2 c j i) /\
  (forall i, (i < n)%nat -> ~ fixed_par n (k_pfix kw) i -> 0 < at2 c i i).

Lemma cov_spread data p0 kw mask errs (al c : arr2 R) (d D : nd R) pc :
  lerrs_ok data kw -> errs_of data kw = Ok errs -> mask_of (length p0) (k_pfix kw) = Ok mask ->
  (forall i k, get d [i; k] = get D [nth i (sel mask (seq 0 (length p0))) 0%nat; k]) ->
  (forall i j, (i < nfree mask)%nat -> (j < nfree mask)%nat -> at2 al i j = rsum (npts data) (fun k => get (wgt_of errs) [k] * get d [i; k] * get d [j; k])) ->
  nr c = nfree mask -> SolvePer.nc c = nfree mask ->
  (forall i j, (i < nfree mask)%nat -> (j < nfree mask)%nat -> rsum (nfree mask) (fun k => at2 c i k * at2 al k j) = if (i =? j)%nat then 1 else 0) ->
  spread mask c = Ok pc -> is_cov data p0 kw D pc.
Proof.
  intros Herr E0 Em Hd Ea C1 C2 C3 Hsp. destruct (mask_of_spec _ _ _ Em) as [Lm _].
  unfold spread in Hsp. fold (nfree mask) in Hsp. rewrite C1, C2, Nat.eqb_refl in Hsp. cbn [andb] in Hsp. injection Hsp as <-.
  assert (HW : forall t, (t < npts data)%nat -> 0 < get (wgt_of errs) [t]) by (intros t Ht; apply (wgt_pos data kw errs Herr E0 t Ht)).
  destruct (inv_gram (nfree mask) (npts data) (fun k => get (wgt_of errs) [k]) (fun i k => get d [i; k]) (at2 al) (at2 c) HW Ea C3) as [I1 I2].
  assert (FX : forall i, (i < length p0)%nat -> (nth i mask false = false <-> fixed_par (length p0) (k_pfix kw) i)).
  { intros i Hi. rewrite (nth_indep _ false true) by lia. apply (mask_fixed _ _ _ _ Em Hi). }
  assert (FR : forall i, (i < length p0)%nat -> ~ fixed_par (length p0) (k_pfix kw) i -> nth i mask false = true).
  { intros i Hi Hf. destruct (nth i mask false) eqn:Q; auto. exfalso. apply Hf, FX; auto. }
  unfold is_cov. cbn [nr SolvePer.nc at2]. rewrite Lm. split; [reflexivity|]. split; [reflexivity|]. split; [|split; [|split]].
  - intros i j Hi Hj [Q|Q]; apply FX in Q; auto; rewrite Q, ?andb_false_r; reflexivity.
  - intros i j Hi Hj Qi Qj. apply FR in Qi; auto. apply FR in Qj; auto.
    rewrite Qi. cbn [andb].
    rewrite (rsum_ext _ _ (fun l => if nth l mask false then (fun r l => at2 c (rank_of mask i) r * gram data kw D l j) (rank_of mask l) l else 0)).
    2:{ intros l Hl. destruct (nth l mask false); [reflexivity|]. change (@n0 R _) with 0. ring. }
    rewrite <- Lm at 1. rewrite (sum_free (fun r l => at2 c (rank_of mask i) r * gram data kw D l j) mask). rewrite Lm.
    rewrite (rsum_ext _ _ (fun r => at2 c (rank_of mask i) r * at2 al r (rank_of mask j))).
    + rewrite (C3 (rank_of mask i) (rank_of mask j) (rank_lt _ _ Qi) (rank_lt _ _ Qj)).
      destruct (Nat.eqb_spec i j) as [->|Hn]; [rewrite Nat.eqb_refl; reflexivity|].
      destruct (Nat.eqb_spec (rank_of mask i) (rank_of mask j)) as [E|]; [|reflexivity]. exfalso. apply Hn, (rank_inj mask); auto.
    + intros r Hr. f_equal. rewrite (Ea r (rank_of mask j) Hr (rank_lt _ _ Qj)). unfold gram. apply rsum_ext. intros t Ht.
      rewrite (proj1 (wgt_pos data kw errs Herr E0 t Ht)), !Hd.
      rewrite (sel_nth mask (seq 0 (length p0)) j 0%nat Qj), seq_nth by auto. cbn [plus]. unfold Rdiv. ring.
  - intros i j Hi Hj. rewrite (andb_comm (nth j mask false)). destruct (nth i mask false && nth j mask false) eqn:Q; [|reflexivity].
    apply andb_prop in Q as [Q1 Q2]. apply I1; apply rank_lt; auto.
  - intros i Hi Qi. apply FR in Qi; auto. rewrite Qi. cbn [andb]. apply I2, rank_lt, Qi.
Qed.
(* C83, what holds: pcov is the covariance matrix for the partial derivatives f returned
   in some call *)
Theorem C83_partial h solve inv fo fi cfg data p0 kw m :
  lm_args_ok data p0 kw -> lm_fun_ok (LGen h) cfg data p0 kw -> lerrs_ok data kw -> 0 < c_gain cfg -> 0 <= c_lambda0 cfg -> solve_ok solve -> inv_ok inv ->
  fst (levmar_run (LGen h) solve inv fo fi cfg data p0 kw []) = Ok (Some m) ->
  exists k q v D, length q = length p0 /\ h k q = (Ok v, Ok D) /\ is_cov data p0 kw D (l_pcov m).
Proof.
  intros Ha Hfn Herr Hg H0 Hso Hin Hm.
  destruct (linalg_ok_raises _ _ Hso Hin) as [Hs1 _].
  destruct (lm_core True (LGen h) solve inv fo fi cfg data p0 kw Ha Hfn Hg H0) as (mask & pmin & pmax & prel & pabs & errs & r & tr & Em & Lm & Hnf & E0 & Serr & RUN & T).
  { intros mask pmin pmax prel pabs errs a lam b _ _ _ (N1 & N2 & _) _ Lb.
    destruct (Hs1 (nfree mask) (damped a lam) b N1 N2 Lb) as [|]; auto. }
  rewrite RUN in Hm. destruct r as [[o|]|e]; cbn [lm_finish fst] in Hm; try discriminate.
  destruct (T o eq_refl) as (T1 & T2 & q & f0 & d & tr0 & tr1 & Lq & G & Sd & Ea).
  destruct (gen_jac _ _ _ _ _ _ _ _ _ _ _ _ (length p0) Lm G) as (D & HD & Hd).
  destruct (Hin (nfree mask) (o_alpha o) T1 T2) as [A B].
  destruct (classic (nonsing (nfree mask) (at2 (o_alpha o)))) as [NS|NS]; [|rewrite (B NS) in Hm; discriminate].
  destruct (A NS) as (c & Ec & C1 & C2 & C3). rewrite Ec in Hm.
  unfold spread in Hm. fold (nfree mask) in Hm. rewrite C1, C2, Nat.eqb_refl in Hm. cbn [andb fst] in Hm. injection Hm as <-. cbn [l_pcov].
  exists (length tr0), (put mask p0 q), f0, D. split; [apply put_length|]. split; [exact HD|].
  apply (cov_spread data p0 kw mask errs (o_alpha o) c d D); auto. unfold spread. fold (nfree mask). rewrite C1, C2, Nat.eqb_refl. reflexivity.
Qed.
(* C83 for derivatives that do not depend on the parameters (f linear in p): then they are
   those at the returned parameters *)
Theorem C83_linear h solve inv fo fi cfg data p0 kw m D :
  lm_args_ok data p0 kw -> lm_fun_ok (LGen h) cfg data p0 kw -> lerrs_ok data kw -> 0 < c_gain cfg -> 0 <= c_lambda0 cfg -> solve_ok solve -> inv_ok inv ->
  (forall k q, snd (h k q) = Ok D) ->
  fst (levmar_run (LGen h) solve inv fo fi cfg data p0 kw []) = Ok (Some m) -> is_cov data p0 kw D (l_pcov m).
Proof.
  intros Ha Hfn Herr Hg H0 Hso Hin HD Hm.
  destruct (C83_partial h solve inv fo fi cfg data p0 kw m Ha Hfn Herr Hg H0 Hso Hin Hm) as (k & q & v & D' & _ & E & C).
  specialize (HD k q). rewrite E in HD. injection HD as <-. exact C.
Qed.

(* C83 as stated fails: alpha is not recomputed after the last step.  f(p) = (x - 1.002001 x^3, 0)
   from x = 0 with the default options ends at x = 1000/1001, where df/dp = (-2, 0), but
   pcov is 1 (for the derivative at 0) and not 1/4 *)
Definition cov_f (p : list R) : nd R := let x := nth 0 p 0 in vec 0 [x * (1 - (1001 / 1000 * x) * (1001 / 1000 * x)); 0].
Definition cov_df (p : list R) : nd R :=
  let x := nth 0 p 0 in Nd [1; 2]%nat (fun idx => if (nth 1 idx 0 =? 0)%nat then 1 - 3 * (1001 / 1000 * x) * (1001 / 1000 * x) else 0).
Lemma C83_derivative x : derivable_pt_lim (fun x => get (cov_f [x]) [0%nat]) x (get (cov_df [x]) [0%nat; 0%nat]).
Proof.
  set (c := 1001 / 1000).
  assert (E : forall y, get (cov_f [y]) [0%nat] = (id - mult_real_fct (c * c) (fun y => y ^ 3))%F y).
  { intros y. unfold minus_fct, mult_real_fct, id. cbn. fold c. ring. }
  intros eps He. assert (D : derivable_pt_lim (id - mult_real_fct (c * c) (fun y => y ^ 3))%F x (get (cov_df [x]) [0%nat; 0%nat])).
  { replace (get (cov_df [x]) [0%nat; 0%nat]) with (1 - c * c * (INR 3 * x ^ Nat.pred 3)) by (cbn; fold c; ring).
    apply derivable_pt_lim_minus; [apply derivable_pt_lim_id|]. apply derivable_pt_lim_scal, derivable_pt_lim_pow. }
  destruct (D eps He) as (delta & Hd). exists delta. intros t Ht Hlt. rewrite !E. apply Hd; auto.
Qed.
Theorem C83_refuted solve inv : solve_ok solve -> inv_ok inv ->
  exists m, fst (levmar_run (LGen (fun _ p => (Ok (cov_f p), Ok (cov_df p)))) solve inv 1 1 lm_default (vec 0 [1; 1]) [0] no_kw []) = Ok (Some m) /\
    at2 (l_pcov m) 0%nat 0%nat = 1 /\ ~ is_cov (vec 0 [1; 1]) [0] no_kw (cov_df (l_p m)) (l_pcov m).
Proof.
  intros Hs Hi.
  assert (H : exists m, fst (levmar_run (LGen (fun _ p => (Ok (cov_f p), Ok (cov_df p)))) solve inv 1 1 lm_default (vec 0 [1; 1]) [0] no_kw []) = Ok (Some m) /\
     l_p m = [0 + 1000 / 1001] /\ at2 (l_pcov m) 0%nat 0%nat = 1).
  { revalc. rewrite Reqb_false by lra. revalc.
    match goal with |- context [solve ?a [?b]] => rewrite (solve_ok1_eq solve a b (1000 / 1001) Hs eq_refl eq_refl); [|cbn; lra|cbn; lra] end.
    revalc. rewrite Rltb_true by lra. revalc. rewrite Rleb_true by (apply conv_neg; lra). revalc.
    match goal with |- context [inv ?a] => destruct (inv_ok1 inv a Hi eq_refl eq_refl) as (c & -> & C1 & C2 & C3); [cbn; lra|] end.
    destruct c as [cr cc cg]. cbn in C1, C2. subst cr cc. revalc. eexists. split; [reflexivity|]. split; [reflexivity|]. cbn in C3. cbn. rewrite C3. lra. }
  destruct H as (m & H1 & H2 & H3). exists m. split; [exact H1|]. split; [exact H3|]. intros (_ & _ & _ & H4 & _).
  specialize (H4 0%nat 0%nat Nat.lt_0_1 Nat.lt_0_1). rewrite H2 in H4. cbn in H4. rewrite H3 in H4.
  assert (NF : ~ fixed_par 1 None 0) by (intros (l & z & Q & _); discriminate).
  specialize (H4 NF NF). unfold gram, leps, cov_df in H4. cbn in H4. lra.
Qed.

(* ---- C84: stationary points ---- *)
Lemma lm_setup_ok (cfg : @lmcfg R) data p0 kw : lm_args_ok data p0 kw ->
  exists errs pmin pmax prel pabs mask,
    errs_of data kw = Ok errs /\ shp errs = shp data /\ mask_of (length p0) (k_pfix kw) = Ok mask /\ length mask = length p0 /\ (0 < nfree mask)%nat /\
    bc_opt (length p0) (k_pmin kw) = Ok pmin /\ bc_opt (length p0) (k_pmax kw) = Ok pmax /\
    bc_list (length p0) (match k_prel kw with Some l => l | None => [c_prel cfg] end) = Ok prel /\
    bc_list (length p0) (match k_pabs kw with Some l => l | None => [c_pabs cfg] end) = Ok pabs.
Proof.
  intros (A1 & A2 & A3 & A4 & A5 & A6 & i0 & Hi0 & Hfree).
  destruct (bc_opt_ok _ _ A3) as (pmin & E1 & _). destruct (bc_opt_ok _ _ A4) as (pmax & E2 & _).
  assert (E3 : exists prel, bc_list (length p0) (match k_prel kw with Some l => l | None => [c_prel cfg] end) = Ok prel).
  { apply bc_list_ok. destruct (k_prel kw) as [l|]; [apply A5; reflexivity|right; reflexivity]. }
  destruct E3 as (prel & E3).
  assert (E4 : exists pabs, bc_list (length p0) (match k_pabs kw with Some l => l | None => [c_pabs cfg] end) = Ok pabs).
  { apply bc_list_ok. destruct (k_pabs kw) as [l|]; [apply A6; reflexivity|right; reflexivity]. }
  destruct E4 as (pabs & E4).
  destruct (mask_of_ok _ _ A2) as (mask & Em).
  destruct (mask_of_spec _ _ _ Em) as [Lm _].
  assert (E0 : exists errs, errs_of data kw = Ok errs /\ shp errs = shp data).
  { unfold errs_of. destruct (k_errs kw) as [e|]; [|eauto]. unfold nd_map2. cbn [shp full].
    rewrite bshape_comm, (bshape_of_bto _ _ (A1 e eq_refl)). eauto. }
  destruct E0 as (errs & E0 & Serr).
  exists errs, pmin, pmax, prel, pabs, mask. repeat (split; [assumption|]). split; [|auto].
  assert (Q : nth i0 mask false = true).
  { rewrite (nth_indep _ false true) by lia. destruct (nth i0 mask true) eqn:Q; auto. exfalso. apply Hfree.
    apply (mask_fixed _ _ _ _ Em Hi0). exact Q. }
  pose proof (rank_lt _ _ Q). lia.
Qed.
(* clipping does nothing inside the bounds *)
Lemma clip_id lo hi p : (forall l, lo = Some l -> length l = length p) -> (forall l, hi = Some l -> length l = length p) ->
  inside lo hi (length p) p -> clip lo hi p = p.
Proof.
  intros L1 L2 HI. unfold clip.
  assert (A : match lo with Some l => zipw nmax p l | None => p end = p).
  { destruct lo as [l|]; [|reflexivity]. apply (nth_ext _ _ 0 0); [rewrite zipw_length, (L1 l eq_refl); lia|].
    rewrite zipw_length, (L1 l eq_refl). intros j Hj. rewrite (nth_zipw2 nmax _ _ _ 0 0) by (rewrite (L1 l eq_refl); lia).
    rewrite nmax_R. apply Rmax_left. apply (HI j ltac:(lia)). reflexivity. }
  rewrite A. destruct hi as [l|]; [|reflexivity]. apply (nth_ext _ _ 0 0); [rewrite zipw_length, (L2 l eq_refl); lia|].
  rewrite zipw_length, (L2 l eq_refl). intros j Hj. rewrite (nth_zipw2 nmin _ _ _ 0 0) by (rewrite (L2 l eq_refl); lia).
  rewrite nmin_R. apply Rmin_left. apply (HI j ltac:(lia)). reflexivity.
Qed.
Lemma list_eqb_refl (p : list R) : list_eqb p p = true.
Proof. induction p as [|x p IH]; cbn; [reflexivity|]. numR. rewrite (Reqb_true x x eq_refl). exact IH. Qed.

(* C84: a point where the gradient of chi2 vanishes, inside the bounds, with independent
   partial derivatives, is returned as it is after a single step *)
Theorem C84_stationary (F D : list R -> nd R) solve inv fo fi cfg data p0 kw :
  let n := length p0 in let N := npts data in
  lm_args_ok data p0 kw -> lerrs_ok data kw ->
  (forall p, length p = n -> shp (F p) = [N] /\ shp (D p) = [n; N]) ->
  0 <= c_lambda0 cfg -> 0 <= c_tol cfg -> solve_ok solve -> inv_ok inv ->
  (forall i, (i < n)%nat -> ~ fixed_par n (k_pfix kw) i -> within kw i (nth i p0 0)) ->
  (forall i, (i < n)%nat -> ~ fixed_par n (k_pfix kw) i ->
     rsum N (fun t => get (D p0) [i; t] * (dpt data t - get (F p0) [t]) / leps data kw t ^ 2) = 0) ->
  (forall c : nat -> R, (forall i, (i < n)%nat -> fixed_par n (k_pfix kw) i -> c i = 0) ->
     (forall t, (t < N)%nat -> rsum n (fun i => c i * get (D p0) [i; t]) = 0) -> forall i, (i < n)%nat -> c i = 0) ->
  let out := levmar_run (LGen (fun _ p => (Ok (F p), Ok (D p)))) solve inv (S fo) (S fi) cfg data p0 kw [] in
  exists m, fst out = Ok (Some m) /\ l_p m = p0 /\ l_niter m = 0%Z /\ (l_neval m <= 2)%nat /\ Forall (fun q => q = p0) (snd out) /\
    l_chi2 m = lcost (fun p => Ok (F p)) data kw p0 / IZR (l_ndof m) /\ is_cov data p0 kw (D p0) (l_pcov m).
Proof.
  intros n N Ha Herr Hsh Hl0 Htol Hso Hin Hwi Hgr Hind out. assert (Ln : n = length p0) by reflexivity.
  destruct (lm_setup_ok cfg data p0 kw Ha) as (errs & pmin & pmax & prel & pabs & mask & E0 & Serr & Em & Lm & Hnf & E1 & E2 & E3 & E4).
  pose proof (levmar_setup (LGen (fun _ p => (Ok (F p), Ok (D p)))) solve inv (S fo) (S fi) cfg data p0 kw errs pmin pmax prel pabs mask E0 Em E1 E2 E3 E4) as RUN.
  fold out in RUN.
  destruct (lerrs_run _ _ Herr) as (errs' & E0' & _ & Hee). rewrite E0 in E0'. injection E0' as <-.
  assert (Ep : put mask p0 (sel mask p0) = p0) by (apply put_sel; auto).
  set (fp := sel mask p0) in *. set (h := fun (_ : nat) p => (Ok (F p), Ok (D p))) in *.
  set (lo := option_map (sel mask) pmin) in *. set (hi := option_map (sel mask) pmax) in *.
  destruct (Hsh p0 eq_refl) as [SF SD].
  assert (Lfp : length fp = nfree mask) by (apply sel_length; exact Lm).
  (* the derivatives of the free parameters *)
  assert (GD : exists d, sel_rows mask (D p0) = Ok d /\ shp d = [nfree mask; N] /\ forall i k, get d [i; k] = get (D p0) [nth i (sel mask (seq 0 n)) 0%nat; k]).
  { unfold sel_rows. rewrite SD, Lm. fold n. rewrite Nat.eqb_refl. eexists. split; [reflexivity|]. cbn [shp get hd tl].
    rewrite sel_length by (rewrite seq_length; exact Lm). split; reflexivity. }
  destruct GD as (d & Ed & Sd & Gd).
  assert (GB : g_both (LGen h) p0 mask lo hi prel pabs fp [] = (Ok (F p0, d), [p0])).
  { unfold g_both, sbind, call_gen, slift, sret, h. rewrite Ep. cbn [fst snd app]. rewrite Ed. reflexivity. }
  assert (Sw : shp (wgt_of errs) = [N]) by (unfold wgt_of, nravel, N, npts; cbn; rewrite Serr; reflexivity).
  destruct (map2_N nsub (nravel data) (F p0) N eq_refl ltac:(rewrite SF; apply bto_refl')) as (dm & Edm & S1 & G1).
  destruct (map2_N nmul (wgt_of errs) dm N Sw (bto_self _ _ S1)) as (wd & Ewd & S2 & G2).
  destruct (map2_N nmul wd dm N S2 (bto_self _ _ S1)) as (cq & Ecq & S3 & G3).
  pose proof (chisq_val data kw errs (F p0) E0 Serr Hee ltac:(rewrite SF; apply bto_refl')) as CV.
  set (X := rsum (npts data) (fun t => ((dpt data t - bget (F p0) [t]) / leps data kw t) ^ 2)) in CV.
  assert (EX : asum cq = X).
  { unfold chisq in CV. rewrite Edm in CV. cbn [bind] in CV. rewrite Ewd in CV. cbn [bind] in CV. rewrite Ecq in CV. cbn [bind] in CV. injection CV as CV. exact CV. }
  assert (LX : lcost (fun p => Ok (F p)) data kw p0 = X) by reflexivity.
  (* beta *)
  assert (E : exists be, dot_nn d wd = Ok be /\ shp be = [nfree mask] /\ forall i, (i < nfree mask)%nat -> get be [i] = 0).
  { unfold dot_nn. unfold ndim. rewrite Sd, S2. cbn [length last Nat.sub nth removelast]. rewrite Nat.eqb_refl.
    cbn [Nat.leb andb]. eexists. split; [reflexivity|]. split; [reflexivity|]. intros i Hi. cbn [get firstn skipn app insert_at].
    destruct (fidx_spec mask n i Lm Hi) as (J1 & J2 & J3). set (j := nth i (sel mask (seq 0 n)) 0%nat) in *.
    rewrite ksum_rsum. refine (eq_trans _ (Hgr j J1 _)).
    - apply rsum_ext. intros t Ht. rewrite Gd. fold j. rewrite G2 by exact Ht. rewrite (bget_self dm) by (rewrite S1; apply inb1, Ht). rewrite G1 by exact Ht.
      rewrite (proj1 (wgt_pos data kw errs Herr E0 t Ht)). rewrite (bget_self (F p0)) by (rewrite SF; apply inb1, Ht).
      change (get (nravel data) [t]) with (dpt data t). numR. unfold Rdiv. ring.
    - intros Q. apply (mask_fixed _ _ _ _ Em J1) in Q. rewrite (nth_indep _ true false) in Q by lia. congruence. }
  destruct E as (be & Ebe & Sbe & Gbe).
  assert (E : exists wdd, nd_map2 nmul (wgt_of errs) d = Ok wdd /\ shp wdd = [nfree mask; N] /\
     forall i k, (i < nfree mask)%nat -> (k < N)%nat -> get wdd [i; k] = get (wgt_of errs) [k] * get d [i; k]).
  { unfold nd_map2. rewrite Sw, Sd, bshape_comm, (bshape_of_bto [N] [nfree mask; N]).
    - eexists. split; [reflexivity|]. split; [reflexivity|]. intros i k Hi Hk. cbn [get].
      rewrite (bget_self d) by (rewrite Sd; repeat constructor; auto). numR. f_equal.
      unfold bget. rewrite Sw. unfold bidx. cbn. destruct (Nat.eqb_spec N 1); [replace k with 0%nat by lia|]; reflexivity.
    - unfold bto. cbn. rewrite Nat.eqb_refl. reflexivity. }
  destruct E as (wdd & Ewdd & Swdd & Gwdd).
  assert (E : exists alpha, inner_nn wdd d = Ok alpha /\ shp alpha = [nfree mask; nfree mask] /\
     forall i j, (i < nfree mask)%nat -> (j < nfree mask)%nat -> get alpha [i; j] = rsum N (fun k => get (wgt_of errs) [k] * get d [i; k] * get d [j; k])).
  { unfold inner_nn, ndim. rewrite Sd, Swdd. cbn [length last removelast]. rewrite Nat.eqb_refl.
    cbn [Nat.leb andb]. eexists. split; [reflexivity|]. split; [reflexivity|]. intros i j Hi Hj. cbn [Nat.sub get firstn skipn app].
    rewrite ksum_rsum. apply rsum_ext. intros k Hk. rewrite Gwdd by auto. reflexivity. }
  destruct E as (alpha & Eal & Sal & Gal).
  assert (E : exists al, to_arr2 alpha = Ok al /\ nr al = nfree mask /\ SolvePer.nc al = nfree mask /\ forall i j, at2 al i j = get alpha [i; j]).
  { unfold to_arr2. rewrite Sal. eexists. split; [reflexivity|]. repeat split. }
  destruct E as (al & Ea & A1 & A2 & Ga).
  assert (E : exists bl, to_list1 be = Ok bl /\ length bl = nfree mask /\ forall i, (i < nfree mask)%nat -> nth i bl 0 = 0).
  { unfold to_list1. rewrite Sbe. eexists. split; [reflexivity|]. rewrite map_length, seq_length. split; [reflexivity|].
    intros i Hi. rewrite (nth_indep _ 0 (get be [0%nat])) by (rewrite map_length, seq_length; exact Hi).
    rewrite (map_nth (fun i => get be [i])), seq_nth by exact Hi. apply Gbe, Hi. }
  destruct E as (bl & Ebl & Lbl & Gbl).
  assert (Aij : forall i j, (i < nfree mask)%nat -> (j < nfree mask)%nat -> at2 al i j = rsum N (fun k => get (wgt_of errs) [k] * get d [i; k] * get d [j; k])).
  { intros i j Hi Hj. rewrite Ga. apply Gal; auto. }
  assert (WP : forall t, (t < N)%nat -> 0 < get (wgt_of errs) [t]) by (intros t Ht; apply (wgt_pos data kw errs Herr E0 t Ht)).
  (* independence in terms of d *)
  assert (IND : forall v : nat -> R, (forall k, (k < N)%nat -> rsum (nfree mask) (fun i => v i * get d [i; k]) = 0) -> forall i, (i < nfree mask)%nat -> v i = 0).
  { intros v Hv i Hi. set (c := fun m => if nth m mask false then v (rank_of mask m) else 0).
    destruct (fidx_spec mask n i Lm Hi) as (J1 & J2 & J3). set (j := nth i (sel mask (seq 0 n)) 0%nat) in *.
    assert (E : c j = 0).
    { apply (Hind c); auto.
      - intros q Hq Hfx. apply (mask_fixed _ _ _ _ Em Hq) in Hfx. unfold c. rewrite (nth_indep _ false true) by lia. rewrite Hfx. reflexivity.
      - intros t Ht. rewrite <- (Hv t Ht).
        rewrite (rsum_ext _ _ (fun q => if nth q mask false then v (rank_of mask q) * get (D p0) [q; t] else 0)).
        + unfold n. rewrite <- Lm. rewrite (sum_free (fun i q => v i * get (D p0) [q; t])). rewrite Lm. apply rsum_ext. intros l Hl. rewrite Gd. reflexivity.
        + intros q Hq. unfold c. destruct (nth q mask false); ring. }
    unfold c in E. rewrite J2, J3 in E. exact E. }
  assert (NSD : forall lam, 0 <= lam -> nonsing (nfree mask) (at2 (damped al lam))).
  { intros lam Hlam v Hv. apply (damped_nonsing (nfree mask) N (fun k => get (wgt_of errs) [k]) (fun i k => get d [i; k]) (at2 al) lam); auto. }
  assert (NSA : nonsing (nfree mask) (at2 al)).
  { intros v Hv. apply (NSD 0 (Rle_refl 0)). intros i Hi. refine (eq_trans _ (Hv i Hi)).
    apply rsum_ext. intros j Hj. cbn. numR. destruct (i =? j)%nat; ring. }
  (* the inverse *)
  destruct (Hin (nfree mask) al A1 A2) as [HA _]. destruct (HA NSA) as (c & Ec & C1 & C2 & C3).
  destruct (inv_gram (nfree mask) N (fun k => get (wgt_of errs) [k]) (fun i k => get d [i; k]) (at2 al) (at2 c) WP Aij C3) as [I1 I2].
  (* the step is zero *)
  destruct (Hso (nfree mask) (damped al (c_lambda0 cfg)) bl A1 A2 Lbl) as [HS _].
  destruct (HS (NSD _ Hl0)) as (x & Ex & Lx & Gx).
  assert (X0 : forall j, (j < nfree mask)%nat -> nth j x 0 = 0).
  { apply (NSD _ Hl0 (fun j => nth j x 0)). intros i Hi. rewrite (Gx i Hi). apply Gbl, Hi. }
  assert (ST : zipw nadd fp x = fp).
  { apply (nth_ext _ _ 0 0); [rewrite zipw_length; lia|]. rewrite zipw_length. intros j Hj. rewrite (nth_zipw2 nadd _ _ _ 0 0) by lia.
    rewrite X0 by lia. numR. ring. }
  assert (LS : forall (o : option (list R)) (q l : list R), bc_opt n o = Ok (Some q) -> sel mask q = l -> length l = length fp).
  { intros o q l Hq <-. rewrite Lfp. apply sel_length. rewrite Lm. symmetry. eapply bc_opt_len; eauto. }
  assert (CL : clip lo hi fp = fp).
  { apply clip_id.
    - unfold lo. intros l Hl. destruct pmin as [q|]; [|discriminate]. injection Hl as Hl. eapply LS; eauto.
    - unfold hi. intros l Hl. destruct pmax as [q|]; [|discriminate]. injection Hl as Hl. eapply LS; eauto.
    - intros j Hj. rewrite Lfp in Hj. destruct (fidx_spec mask n j Lm Hj) as (J1 & J2 & J3). set (i := nth j (sel mask (seq 0 n)) 0%nat) in *.
      assert (NF : ~ fixed_par n (k_pfix kw) i).
      { intros Q. apply (mask_fixed _ _ _ _ Em J1) in Q. rewrite (nth_indep _ true false) in Q by lia. congruence. }
      destruct (Hwi i J1 NF) as [W1 W2].
      assert (SN : forall l : list R, nth j (sel mask l) 0 = nth i l 0) by (intros l; rewrite <- J3; apply sel_nth, J2).
      split; intros l Hl; [unfold lo in Hl; destruct pmin as [q|]|unfold hi in Hl; destruct pmax as [q|]]; try discriminate; injection Hl as <-.
      + unfold fp. rewrite !SN. destruct (bc_opt_bnd _ _ _ E1) as (l0 & Q1 & Q2). rewrite (Q2 i J1). apply W1, Q1.
      + unfold fp. rewrite !SN. destruct (bc_opt_bnd _ _ _ E2) as (l0 & Q1 & Q2). rewrite (Q2 i J1). apply W2, Q1. }
  (* the covariances *)
  assert (COV : exists pc, spread mask c = Ok pc /\ is_cov data p0 kw (D p0) pc).
  { unfold spread. fold (nfree mask). rewrite C1, C2, Nat.eqb_refl. cbn [andb]. eexists. split; [reflexivity|].
    apply (cov_spread data p0 kw mask errs al c d (D p0)); auto. unfold spread. fold (nfree mask). rewrite C1, C2, Nat.eqb_refl. reflexivity. }
  destruct COV as (pc & Epc & Cpc).
  (* the run *)
  assert (OUT : exists o tr, lm_outer (LGen h) solve (nravel data) (wgt_of errs) p0 mask lo hi prel pabs cfg (S fo) (S fi) fp None (c_lambda0 cfg) 0 0 [] = (Ok (Some o), tr) /\
     o_p o = fp /\ o_chi2 o = X /\ o_alpha o = al /\ o_niter o = 0%Z /\ (o_neval o <= 2)%nat /\ Forall (fun q => q = p0) tr).
  { cbn [lm_outer]. unfold sbind at 1. rewrite GB. cbn [fst snd].
    unfold sbind at 1. unfold slift at 1. rewrite Edm. unfold sbind at 1. unfold slift at 1. rewrite Ewd.
    unfold sbind at 1. unfold sbind at 1. unfold slift at 1. rewrite Ecq. unfold sret at 1. cbn [fst snd].
    unfold sbind at 1. unfold slift at 1. rewrite Ebe. unfold sbind at 1. unfold slift at 1. rewrite Ewdd.
    unfold sbind at 1. unfold slift at 1. rewrite Eal. unfold sbind at 1. unfold slift at 1. rewrite Ea. rewrite EX.
    change (X =? n0)%K with (Reqb X 0). destruct (Reqb_spec X 0) as [Z|NZ].
    - eexists. eexists. split; [reflexivity|]. cbn. repeat split; auto.
    - unfold sbind at 1. unfold slift at 1. rewrite Ebl.
      assert (LI : lm_inner (LGen h) solve (nravel data) (wgt_of errs) p0 mask lo hi cfg (S fi) fp X al bl (c_lambda0 cfg) 1 [p0] = (Ok (Some (fp, X, c_lambda0 cfg, 2%nat)), [p0; p0])).
      { cbn [lm_inner]. unfold sbind at 1. unfold slift at 1. rewrite Ex. rewrite ST, CL.
        assert (GN : g_next (LGen h) p0 mask fp [p0] = (Ok (F p0), [p0; p0])).
        { unfold g_next, sbind, call_gen, slift, h. rewrite Ep. reflexivity. }
        unfold sbind at 1. rewrite GN. unfold sbind at 1. unfold slift at 1. rewrite CV. rewrite list_eqb_refl, orb_true_r. reflexivity. }
      unfold sbind at 1. rewrite LI.
      replace (nleb _ _) with true.
      + eexists. eexists. split; [reflexivity|]. cbn. repeat split; auto.
      + symmetry. numR. apply Rleb_true. replace (X - X) with 0 by ring. unfold Rdiv. lra. }
  destruct OUT as (o & tr & EO & O1 & O2 & O3 & O4 & O5 & O6).
  rewrite EO in RUN. cbn [lm_finish] in RUN. rewrite O3, Ec, Epc in RUN. rewrite RUN. cbn [fst snd].
  eexists. split; [reflexivity|]. cbn [l_p l_niter l_neval l_chi2 l_ndof l_pcov]. rewrite O1, O2, O4, Ep.
  split; [reflexivity|]. split; [reflexivity|]. split; [exact O5|]. split; [exact O6|]. split; [reflexivity|exact Cpc].
Qed.

(* ---- C82: data with two or more axes ---- *)
Lemma row_bc N X L : bshape [N] (X ++ [L]) = match bdim N L with Some c => Some (X ++ [c]) | None => None end.
Proof.
  unfold bshape. rewrite rev_app_distr. cbn. destruct (bdim N L) as [c|]; [|reflexivity]. cbn.
  replace (brev [] (rev X)) with (Some (rev X)) by (destruct (rev X); reflexivity). cbn. rewrite rev_involutive. reflexivity.
Qed.
Lemma map2_row {A B C} (g : A -> B -> C) (a : nd A) (b : nd B) N X L : (2 <= N)%nat -> shp a = [N] -> shp b = X ++ [L] ->
  nd_map2 g a b = Err ValueError \/ exists c, nd_map2 g a b = Ok c /\ shp c = X ++ [N] /\ (L = N \/ L = 1%nat).
Proof.
  intros HN Ha Hb. unfold nd_map2. rewrite Ha, Hb, row_bc. unfold bdim. destruct (Nat.eqb_spec N L).
  - subst L. right. eexists. split; [reflexivity|]. split; auto.
  - destruct (Nat.eqb_spec N 1); [lia|]. destruct (Nat.eqb_spec L 1); [|left; reflexivity]. right. eexists. split; [reflexivity|]. split; auto.
Qed.
Lemma loop_shape h mask p fp f0 s : (forall k q, length q = length p -> exists v, h k q = Ok v /\ shp v = s) -> shp f0 = s ->
  forall dps i tr, match fst (np_loop h mask p fp f0 i dps tr) with
                   | Ok rows => Forall (fun r => shp r = s) rows | Err e => e = ValueError end.
Proof.
  intros Hh S0. induction dps as [|d dps IH]; intros i tr; cbn [np_loop]; [constructor|].
  destruct (d =? n0)%K; [reflexivity|]. unfold sbind, call_plain, slift.
  match goal with |- context [h ?a ?b] => destruct (Hh a b (put_length _ _ _)) as (v & -> & Sv) end.
  rewrite (nd_map2_same nsub v f0 s Sv S0).
  match goal with |- context [np_loop h mask p fp f0 (S i) dps ?t] => specialize (IH (S i) t); destruct (np_loop h mask p fp f0 (S i) dps t) as [[rows|e] t'] end; cbn [fst] in *; [|exact IH].
  cbn. constructor; auto.
Qed.
Lemma partials_shape h pmin pmax prel pabs mask p f0 s tr : (forall k q, length q = length p -> exists v, h k q = Ok v /\ shp v = s) -> shp f0 = s ->
  match fst (numerical_partials h pmin pmax prel pabs mask p f0 tr) with
  | Ok d => shp d = [0%nat] \/ exists r, shp d = r :: s
  | Err e => e = ValueError end.
Proof.
  intros Hh S0. unfold numerical_partials, sbind, slift.
  destruct (np_flip pmin pmax (sel mask p) (np_steps prel pabs mask p)) as [dps|e] eqn:E.
  - pose proof (loop_shape h mask p (sel mask p) f0 s Hh S0 dps 0 tr) as L.
    destruct (np_loop _ _ _ _ _ _ _ _) as [[rows|e] t']; cbn [fst] in *; [|exact L].
    unfold np_stack. destruct rows as [|r rows]; [cbn; auto|]. pose proof (Forall_inv L) as Hr. rewrite <- Hr.
    destruct (forallb _ _); [|reflexivity]. cbn. right. eauto.
  - cbn. unfold np_flip in E. destruct pmax; [|discriminate]. destruct (existsb _ _); [|discriminate]. destruct pmin; [|discriminate].
    destruct (existsb _ _); [|discriminate]. congruence.
Qed.
Lemma size_app' a b : size (a ++ b) = (size a * size b)%nat.
Proof. unfold size. induction a as [|x a IH]; cbn [app fold_right]; [lia|]. rewrite IH. lia. Qed.

(* C82 as documented fails: with two or more points arranged along two or more axes, and f
   (and dfdp) of the documented shape, levmar always raises ValueError *)
Theorem C82_refuted f solve inv fo fi cfg data p0 kw :
  (2 <= ndim data)%nat -> (2 <= npts data)%nat -> lm_args_ok data p0 kw ->
  match f with
  | LPlain h => forall k p, length p = length p0 -> exists v, h k p = Ok v /\ shp v = shp data
  | LGen h => forall k p, length p = length p0 -> exists v d, h k p = (Ok v, Ok d) /\ shp v = shp data /\ shp d = length p0 :: shp data
  end ->
  fst (levmar_run f solve inv (S fo) fi cfg data p0 kw []) = Err ValueError.
Proof.
  intros Hdim HN Ha Hf.
  destruct (lm_setup_ok cfg data p0 kw Ha) as (errs & pmin & pmax & prel & pabs & mask & E0 & Serr & Em & Lm & Hnf & E1 & E2 & E3 & E4).
  rewrite (levmar_setup f solve inv (S fo) fi cfg data p0 kw errs pmin pmax prel pabs mask E0 Em E1 E2 E3 E4).
  set (lo := option_map (sel mask) pmin). set (hi := option_map (sel mask) pmax). set (fp := sel mask p0). set (N := npts data) in *.
  assert (SP : exists s0 M L, shp data = s0 ++ [M; L]).
  { unfold ndim in Hdim. destruct (shp data) as [|a l] using rev_ind; [cbn in Hdim; lia|]. clear IHl.
    destruct l as [|b l] using rev_ind; [cbn in Hdim; lia|]. exists l, b, a. rewrite <- app_assoc. reflexivity. }
  destruct SP as (s0 & M & L & Hs).
  assert (NE : N = (size s0 * (M * L))%nat). { unfold N, npts. rewrite Hs, size_app'. cbn. lia. }
  assert (G : match fst (g_both f p0 mask lo hi prel pabs fp []) with
              | Ok (v, d) => shp v = shp data /\ (shp d = [0%nat] \/ exists r, shp d = r :: shp data)
              | Err e => e = ValueError end).
  { unfold g_both. destruct f as [h|h].
    - unfold sbind at 1. unfold call_plain. destruct (Hf (length (@nil (list R))) (put mask p0 fp) (put_length _ _ _)) as (v & -> & Sv).
      unfold sbind. pose proof (partials_shape h lo hi prel pabs mask (put mask p0 fp) v (shp data) ([] ++ [put mask p0 fp])) as P.
      rewrite put_length in P. specialize (P Hf Sv).
      destruct (numerical_partials _ _ _ _ _ _ _ _ _) as [[d|e] t]; cbn [fst sret] in *; [|exact P]. cbn. auto.
    - unfold sbind, call_gen, slift, sret. destruct (Hf (length (@nil (list R))) (put mask p0 fp) (put_length _ _ _)) as (v & d & -> & Sv & Sd). cbn [fst snd].
      unfold sel_rows. rewrite Sd, Lm, Nat.eqb_refl. cbn. split; [exact Sv|]. right. eauto. }
  cbn [lm_outer]. unfold sbind at 1.
  destruct (g_both f p0 mask lo hi prel pabs fp []) as [[[v d]|e] tr1]; cbn [fst] in G; [|subst e; reflexivity].
  destruct G as [Sv Sd]. cbn [fst snd].
  assert (Sw : shp (wgt_of errs) = [N]) by (unfold wgt_of, nravel, N, npts; cbn; rewrite Serr; reflexivity).
  unfold sbind at 1. unfold slift at 1.
  destruct (map2_row nsub (nravel data) v N (s0 ++ [M]) L HN eq_refl ltac:(rewrite Sv, Hs, <- app_assoc; reflexivity)) as [->|(dm & -> & S1 & HL)]; [reflexivity|].
  unfold sbind at 1. unfold slift at 1.
  destruct (map2_row nmul (wgt_of errs) dm N (s0 ++ [M]) N HN Sw S1) as [->|(wd & -> & S2 & _)]; [reflexivity|].
  unfold sbind at 1. unfold sbind at 1. unfold slift at 1. rewrite (nd_map2_same nmul wd dm _ S2 S1). unfold sret at 1. cbn [fst snd].
  unfold sbind at 1. unfold slift at 1.
  assert (WM : nth (ndim wd - 2) (shp wd) 0%nat = M).
  { unfold ndim. rewrite S2, <- app_assoc, app_length. cbn [app length]. replace (length s0 + 2 - 2)%nat with (length s0) by lia.
    rewrite app_nth2, Nat.sub_diag by lia. reflexivity. }
  assert (WD : (1 <= ndim wd)%nat) by (unfold ndim; rewrite S2, !app_length; cbn; lia).
  destruct Sd as [Sd|[r Sd]].
  { assert (dot_nn d wd = Err ValueError).
    { unfold dot_nn. rewrite WM. unfold ndim at 1. rewrite Sd. cbn [length last]. destruct (Nat.eqb_spec 0 M); [subst M; cbn in *; lia|].
      rewrite andb_false_r. reflexivity. }
    rewrite H. reflexivity. }
  assert (LD : last (shp d) 0%nat = L). { rewrite Sd, Hs. change (r :: s0 ++ [M; L]) with ((r :: s0) ++ [M; L]). rewrite (app_assoc _ [M] [L] : _ ++ [M] ++ [L] = _), last_last. reflexivity. }
  destruct (dot_nn d wd) as [be|e] eqn:ED.
  2:{ unfold dot_nn in ED. destruct (_ && _ && _)%bool; [discriminate|]. injection ED as <-. reflexivity. }
  assert (LM : L = M).
  { unfold dot_nn in ED. rewrite WM, LD in ED. destruct (Nat.eqb_spec L M); auto. rewrite andb_false_r in ED. discriminate. }
  unfold sbind at 1. unfold slift at 1.
  destruct (map2_row nmul (wgt_of errs) d N (r :: s0 ++ [M]) L HN Sw ltac:(rewrite Sd, Hs; cbn; rewrite <- app_assoc; reflexivity)) as [->|(wdd & -> & S3 & _)]; [reflexivity|].
  unfold sbind at 1. unfold slift at 1.
  assert (IE : inner_nn wdd d = Err ValueError).
  { unfold inner_nn. rewrite S3, LD. change (r :: s0 ++ [M]) with ((r :: s0) ++ [M]). rewrite last_last.
    destruct (Nat.eqb_spec N L) as [EN|]; [|rewrite andb_false_r; reflexivity]. exfalso. clearbody N. subst M. subst L. destruct (size s0); nia. }
  rewrite IE. reflexivity.
Qed.

(* ---- a concrete case for the hypotheses of C65-C69, C72, C83 and C84 ---- *)
(* f(p) = (p0 p1, p0 p1) with p1 = 7 fixed, two data points with errors 2, 0 <= p <= 10 *)
Definition ex_F (p : list R) : nd R := let y := nth 0 p 0 * nth 1 p 0 in vec 0 [y; y].
Definition ex_D (p : list R) : nd R := Nd [2; 2]%nat (fun idx => if (nth 0 idx 0 =? 0)%nat then nth 1 p 0 else nth 0 p 0).
Definition ex_h (_ : nat) (p : list R) : res (nd R) * res (nd R) := (Ok (ex_F p), Ok (ex_D p)).
Definition ex_kw : @lmkw R := LmKw (Some (scalar 2)) (Some [(-1)%Z]) (Some [0]) (Some [10; 10]) None None.
Definition ex_data : nd R := vec 0 [13; 15].
Lemma ex_fixed i : fixed_par 2 (k_pfix ex_kw) i <-> i = 1%nat.
Proof.
  split.
  - intros (l & z & Q & Hz & E). injection Q as <-. destruct Hz as [<-|[]]. lia.
  - intros ->. exists [(-1)%Z], (-1)%Z. split; [reflexivity|]. split; [left; reflexivity|]. right. reflexivity.
Qed.
Lemma ex_args x : lm_args_ok ex_data [x; 7] ex_kw.
Proof.
  unfold lm_args_ok. cbn [length ex_kw k_errs k_pfix k_pmin k_pmax k_prel k_pabs]. split; [|split].
  - intros e Q. injection Q as <-. reflexivity.
  - intros l Q. injection Q as <-. split; [discriminate|]. intros z [<-|[]]. lia.
  - repeat split; try (intros l Q; first [discriminate|injection Q as <-]; cbn; auto). exists 0%nat. split; [lia|]. intros Q. apply (ex_fixed 0) in Q. discriminate.
Qed.
Lemma ex_errs : lerrs_ok ex_data ex_kw.
Proof. split; [reflexivity|]. intros t _. unfold leps. cbn. lra. Qed.
Lemma ex_fun_ok x : lm_fun_ok (LGen ex_h) lm_default ex_data [x; 7] ex_kw.
Proof. intros k p Lp. do 2 eexists. split; [reflexivity|]. split; reflexivity. Qed.
(* C84: p0 = 2 is the minimum *)
Example ex_C84 : exists m, fst (levmar_run (LGen ex_h) g_solve g_inv 100 116 lm_default ex_data [2; 7] ex_kw []) = Ok (Some m) /\
  l_p m = [2; 7] /\ l_chi2 m = 1 / 2 /\ at2 (l_pcov m) 0%nat 0%nat = 2 / 49.
Proof.
  destruct (C84_stationary ex_F ex_D g_solve g_inv 99 115 lm_default ex_data [2; 7] ex_kw (ex_args 2) ex_errs) as (m & H1 & H2 & _ & _ & _ & H3 & H4).
  - intros p Lp. split; reflexivity.
  - cbn. numR. lra.
  - cbn. numR. lra.
  - apply linalg_exists.
  - apply linalg_exists.
  - intros i Hi NF. destruct i as [|[|i]]; cbn in Hi; try lia; [|contradiction NF; apply ex_fixed; reflexivity].
    split; intros l Q; injection Q as <-; cbn; lra.
  - intros i Hi NF. destruct i as [|[|i]]; cbn in Hi; try lia; [|contradiction NF; apply ex_fixed; reflexivity].
    cbn. unfold leps, dpt. cbn. lra.
  - intros c Hc Hd i Hi. assert (C1 : c 1%nat = 0) by (apply Hc; [cbn; lia|apply ex_fixed; reflexivity]).
    destruct i as [|[|i]]; cbn in Hi; [|exact C1|lia]. specialize (Hd 0%nat Nat.lt_0_2). cbn in Hd. rewrite C1 in Hd. lra.
  - exists m. split; [exact H1|]. split; [exact H2|].
    assert (ND : l_ndof m = 1%Z).
    { destruct (levmar_unfold (LGen ex_h) g_solve g_inv 100 116 lm_default ex_data [2; 7] ex_kw) as [[e E]|(errs & pmin & pmax & prel & pabs & mask & _ & Em & _ & _ & _ & _ & E)].
      - change (LGen ex_h) with (LGen (fun _ p => (Ok (ex_F p), Ok (ex_D p)))) in E. rewrite E in H1. discriminate.
      - change (LGen ex_h) with (LGen (fun _ p => (Ok (ex_F p), Ok (ex_D p)))) in E. rewrite E in H1.
        destruct (lm_outer _ _ _ _ _ _ _ _ _ _ _ _ _ _ _ _ _ _ _) as [[[o|]|e] tr]; try discriminate.
        cbn [lm_finish] in H1. destruct (g_inv (o_alpha o)); [|discriminate]. destruct (spread mask a); [|discriminate].
        injection H1 as <-. cbn in Em. injection Em as <-. reflexivity. }
    split.
    + rewrite H3, ND. unfold lcost, leps, dpt. cbn. lra.
    + destruct H4 as (_ & _ & Z & I & _). specialize (I 0%nat 0%nat ltac:(cbn; lia) ltac:(cbn; lia)).
      assert (NF : ~ fixed_par 2 (k_pfix ex_kw) 0) by (intros Q; apply ex_fixed in Q; discriminate).
      specialize (I NF NF). cbn in I. rewrite (Z 0%nat 1%nat) in I; [|cbn; lia|cbn; lia|right; apply ex_fixed; reflexivity].
      unfold gram, leps in I. cbn in I. lra.
Qed.
(* C66, C67, C69, C72 and C83 apply to that run; C68 also from any other start *)
Example ex_others m : fst (levmar_run (LGen ex_h) g_solve g_inv 100 116 lm_default ex_data [2; 7] ex_kw []) = Ok (Some m) ->
  det_val (LGen ex_h) (fun p => Ok (ex_F p)) /\ val_ok (fun p => Ok (ex_F p)) ex_data /\
  within ex_kw 0 2 /\ exists k q v D, length q = 2%nat /\ ex_h k q = (Ok v, Ok D) /\ is_cov ex_data [2; 7] ex_kw D (l_pcov m).
Proof.
  intros Hm. destruct linalg_exists as (S1 & S2 & _). split; [|split; [|split]].
  - intros k p. reflexivity.
  - intros p v Q. injection Q as <-. reflexivity.
  - split; intros l Q; injection Q as <-; cbn; lra.
  - apply (C83_partial ex_h g_solve g_inv 100 116 lm_default ex_data [2; 7] ex_kw m (ex_args 2) (ex_fun_ok 2) ex_errs); auto; cbn; numR; lra.
Qed.
Example ex_C68 x : let out := levmar_run (LGen ex_h) g_solve g_inv 100 116 lm_default ex_data [x; 7] ex_kw [] in
  (length (snd out) <= 316)%nat /\ ((exists m, fst out = Ok (Some m)) \/ fst out = Err LevmarError \/ fst out = Err LinAlgError).
Proof.
  destruct linalg_exists as (S1 & S2 & _). cbn zeta.
  assert (E : c_lambdax (@lm_default R _) < c_lambda0 (@lm_default R _) * c_gain (@lm_default R _) ^ 16).
  { cbn [lm_default c_lambdax c_lambda0 c_gain]. numR. simpl. lra. }
  split.
  - pose proof (C68_terminates (LGen ex_h) g_solve g_inv 100 116 lm_default ex_data [x; 7] ex_kw 16) as T.
    apply T; [cbn; numR; lra|cbn; numR; lra|exact E|cbn; lia|cbn; lia].
  - apply (C68_outcome_partial (LGen ex_h) g_solve g_inv 100 116 lm_default ex_data [x; 7] ex_kw 16); [cbn; numR; lra|cbn; numR; lra|exact E|cbn; lia|cbn; lia|apply ex_args|apply ex_fun_ok|apply linalg_ok_raises; auto].
Qed.
(* independent derivatives (C68_outcome): f(p) = (p0, p0) *)
Example ex_rank : full_rank (fun _ p => (Ok (vec 0 [nth 0 p 0; nth 0 p 0]), Ok (Nd [1; 2]%nat (fun _ => 1)))) (vec 0 [1; 3]) [0] no_kw.
Proof.
  intros k p v d Lp Q. injection Q as _ <-. intros c _ H i Hi. specialize (H 0%nat Nat.lt_0_2). cbn in *. replace i with 0%nat by lia. lra.
Qed.
(* C82: a 2 by 2 image *)
Example ex_C82 solve inv fi cfg : let F (p : list R) := Nd [2; 2]%nat (fun _ => nth 0 p 0) in
  fst (levmar_run (LPlain (fun _ p => Ok (F p))) solve inv 1 fi cfg (Nd [2; 2]%nat (fun _ => 1)) [0] no_kw []) = Err ValueError.
Proof.
  apply C82_refuted; [cbn; lia|cbn; lia| |].
  - unfold lm_args_ok. cbn. repeat split; try (intros l Q; discriminate); try discriminate.
    exists 0%nat. split; [lia|]. intros (l & z & Q & _). discriminate.
  - intros k p _. eexists. split; reflexivity.
Qed.
Print Assumptions C82_refuted.
Print Assumptions C83_partial.
Print Assumptions C83_linear.
Print Assumptions C83_refuted.
Print Assumptions C84_stationary.
