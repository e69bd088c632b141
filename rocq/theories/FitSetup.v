(* Lemmas on the argument handling of plfit and splfit (_splfit_setup, _splfit_args). *)
From Coq Require Import List Arith ZArith Lia Bool Reals Lra.
From Verif Require Import Num PyBase NdArray NdLemmas Poly SpecPoly PwPoly PwBase RSum SolvePer SolveProofs Gauss PropsSolve Spline SplineProofs SplineCore SplineSolve SplineFacts PropsSpline Fit FitProofs PropsElem.
Import ListNotations.
Local Open Scope R_scope.

(* --- vocabulary --------------------------------------------------------------------------------- *)
(* v is one of the elements of x *)
Definition datum (x : nd R) (v : R) : Prop := exists idx, inb idx (shp x) /\ get x idx = v.
(* the knots to the left of x0, to the right of xl for data P *)
Definition knot_below (P : R -> Prop) (x0 : R) (a : list R) : Prop :=
  (a = [] /\ forall v, P v -> x0 <= v) \/ (exists m, a = [m] /\ P m /\ m < x0 /\ forall v, P v -> m <= v).
Definition knot_above (P : R -> Prop) (xl : R) (a : list R) : Prop :=
  (a = [] /\ forall v, P v -> v <= xl) \/ (exists m, a = [m] /\ P m /\ xl < m /\ forall v, P v -> v <= m).
Definition fit_knots (P : R -> Prop) (xk K : list R) : Prop :=
  exists a b, K = (a ++ xk ++ b)%list /\ knot_below P (nth 0 xk 0) a /\ knot_above P (nth (length xk - 1) xk 0) b.

Lemma flat_In (x : nd R) v : In v (flat x) <-> datum x v.
Proof.
  unfold flat, datum. rewrite in_map_iff. split.
  - intros (k & <- & Hk). apply in_seq in Hk. exists (unravel (shp x) k). split; [apply inb_unravel; lia|reflexivity].
  - intros (idx & Hi & <-). exists (ravel (shp x) idx). rewrite unravel_ravel by auto. split; [reflexivity|].
    apply in_seq. pose proof (ravel_lt _ _ Hi). lia.
Qed.
Lemma flat_length (x : nd R) : length (flat x) = size (shp x).
Proof. unfold flat. rewrite map_length, seq_length. reflexivity. Qed.
Lemma flat_nth (x : nd R) t d : (t < size (shp x))%nat -> nth t (flat x) d = get x (unravel (shp x) t).
Proof.
  intros H. unfold flat. rewrite (nth_indep _ d (get x (unravel (shp x) 0))) by (rewrite map_length, seq_length; auto).
  rewrite (map_nth (fun k => get x (unravel (shp x) k))), seq_nth by auto. reflexivity.
Qed.
Lemma lmin_spec (l : list R) : l <> [] -> exists m, lmin l = Ok m /\ In m l /\ forall v, In v l -> m <= v.
Proof.
  destruct l as [|a l]; [congruence|]. intros _. destruct (fold_min_R l a) as [H1 H2]. exists (fold_left nmin l a). auto.
Qed.
Lemma lmax_spec (l : list R) : l <> [] -> exists m, lmax l = Ok m /\ In m l /\ forall v, In v l -> v <= m.
Proof.
  destruct l as [|a l]; [congruence|]. intros _. destruct (fold_max_R l a) as [H1 H2]. exists (fold_left nmax l a). auto.
Qed.
Lemma fit_setup_np xk (x : nd R) lo hi ex : incr xk -> (2 <= length xk)%nat -> size (shp x) <> 0%nat ->
  let x0 := nth 0 xk 0 in let xl := nth (length xk - 1) xk 0 in
  ((exists v, datum x v /\ v < x0) /\ lo <> [] \/ (exists v, datum x v /\ xl < v) /\ hi <> [] ->
     fit_setup xk x lo hi false ex = Err ValueError) /\
  ((forall v, datum x v -> x0 <= v) \/ lo = [] -> (forall v, datum x v -> v <= xl) \/ hi = [] ->
     exists K, fit_knots (datum x) xk K /\ fit_setup xk x lo hi false ex = Ok (K, x, lo, hi, ex)).
Proof.
  intros Hi Hx Hsz x0 xl. unfold fit_setup. cbn [andb]. destruct (Nat.ltb_spec (length xk) 2); [lia|].
  rewrite incr_ends by auto. change (@n0 R NumR) with 0. fold x0 xl.
  assert (Hne : flat x <> []). { intros E. pose proof (flat_length x) as L. rewrite E in L. cbn in L. lia. }
  destruct (lmin_spec _ Hne) as (m & Em & Im & Hm). destruct (lmax_spec _ Hne) as (M & EM & IM & HM).
  rewrite Em, EM. cbn [bind]. apply flat_In in Im, IM.
  assert (Hm' : forall v, datum x v -> m <= v) by (intros v Hv; apply Hm, flat_In, Hv).
  assert (HM' : forall v, datum x v -> v <= M) by (intros v Hv; apply HM, flat_In, Hv).
  cbn [nltb NumR]. split.
  - intros [[(v & Dv & Lv) Hl]|[(v & Dv & Lv) Hl]].
    + destruct (Rltb_spec m x0) as [|A]; [|specialize (Hm' v Dv); lra]. destruct lo; [congruence|]. reflexivity.
    + destruct (Rltb m x0 && nonempty lo); [reflexivity|]. destruct (Rltb_spec xl M) as [|A]; [|specialize (HM' v Dv); lra].
      destruct hi; [congruence|]. reflexivity.
  - intros Hl Hh. assert (A1 : Rltb m x0 && nonempty lo = false).
    { destruct Hl as [Hl| ->]; [|apply andb_false_r]. destruct (Rltb_spec m x0) as [A|]; [|reflexivity]. specialize (Hl m Im). exfalso; lra. }
    assert (A2 : Rltb xl M && nonempty hi = false).
    { destruct Hh as [Hh| ->]; [|apply andb_false_r]. destruct (Rltb_spec xl M) as [A|]; [|reflexivity]. specialize (Hh M IM). exfalso; lra. }
    rewrite A1, A2. eexists. split; [|reflexivity]. eexists. eexists. split; [reflexivity|]. split.
    + fold x0. destruct (Rltb_spec m x0) as [A|A]; [right; exists m; auto|]. left. split; [reflexivity|]. intros v Hv. specialize (Hm' v Hv). lra.
    + fold xl. destruct (Rltb_spec xl M) as [A|A]; [right; exists M; auto|]. left. split; [reflexivity|]. intros v Hv. specialize (HM' v Hv). lra.
Qed.
Lemma incr_app_l m l : incr l -> (1 <= length l)%nat -> m < nth 0 l 0 -> incr (m :: l).
Proof. intros H Hl Hm i Hi. destruct i; cbn [nth] in *; [exact Hm|]. apply H. cbn in Hi. lia. Qed.
Lemma incr_snoc m l : incr l -> (1 <= length l)%nat -> nth (length l - 1) l 0 < m -> incr (l ++ [m]).
Proof.
  intros H Hl Hm i Hi. rewrite app_length in Hi. cbn in Hi. destruct (Nat.eq_dec (S i) (length l)) as [E|E].
  - rewrite (app_nth2 _ _ _ (n := S i)), app_nth1 by lia. rewrite E, Nat.sub_diag. cbn. replace i with (length l - 1)%nat by lia. exact Hm.
  - rewrite !app_nth1 by lia. apply H. lia.
Qed.
Lemma fit_knots_incr P xk K : incr xk -> (2 <= length xk)%nat -> fit_knots P xk K ->
  incr K /\ (2 <= length K)%nat /\ forall v, P v -> nth 0 K 0 <= v <= nth (length K - 1) K 0.
Proof.
  intros Hi Hx (a & b & -> & HA & HB).
  assert (B : incr (xk ++ b) /\ nth 0 (xk ++ b) 0 = nth 0 xk 0 /\ (2 <= length (xk ++ b))%nat /\
    forall v, P v -> v <= nth (length (xk ++ b) - 1) (xk ++ b) 0).
  { destruct HB as [[-> H]|(m & -> & Pm & Lm & H)].
    - rewrite app_nil_r. auto.
    - split; [apply incr_snoc; auto; lia|]. split; [apply app_nth1; lia|]. rewrite app_length. cbn. split; [lia|].
      intros v Hv. rewrite app_nth2 by lia. replace (length xk + 1 - 1 - length xk)%nat with 0%nat by lia. cbn. auto. }
  destruct B as (B1 & B2 & B3 & B4). destruct HA as [[-> H]|(m & -> & Pm & Lm & H)].
  - cbn [app]. split; [auto|]. split; [auto|]. intros v Hv. rewrite B2. auto.
  - cbn [app length]. split; [apply incr_app_l; auto; lia || lra|]. split; [lia|]. intros v Hv. split; [cbn; auto|].
    replace (S (length (xk ++ b)) - 1)%nat with (S (length (xk ++ b) - 1)) by lia. cbn [nth]. auto.
Qed.
Lemma fit_setup_per xk (x : nd R) : incr xk -> (2 <= length xk)%nat ->
  let T := nth (length xk - 1) xk 0 - nth 0 xk 0 in
  fit_setup xk x [] [] true ExNone = Ok (xk, nd_map (fun v => nmod (v - nth 0 xk 0) T + nth 0 xk 0) x, [], [], ExNone).
Proof.
  intros Hi Hx T. unfold fit_setup. cbn [andb orb nonempty ex_given]. destruct (Nat.ltb_spec (length xk) 2); [lia|].
  rewrite incr_ends by auto. reflexivity.
Qed.
(* the reduction to one period *)
Lemma nmod_period (v x0 T : R) : 0 < T -> exists k : Z, nmod (v - x0) T + x0 = v + IZR k * T /\ x0 <= nmod (v - x0) T + x0 < x0 + T.
Proof.
  intros HT. unfold nmod. numR. set (z := nfloor ((v - x0) / T)). exists (- z)%Z.
  pose proof (base_Int_part ((v - x0) / T)) as [H1 H2]. change (Int_part ((v - x0) / T)) with z in *.
  assert (E : (v - x0) / T * T = v - x0) by (field; lra).
  assert (IZR z * T <= v - x0) by (rewrite <- E; apply Rmult_le_compat_r; lra).
  assert (v - x0 < (IZR z + 1) * T) by (rewrite <- E at 1; apply Rmult_lt_compat_r; lra).
  rewrite opp_IZR. split; [ring|]. lra.
Qed.

(* --- the interval of each point ----------------------------------------------------------------- *)
Definition fit_ix (xk : list R) (v : R) : nat := (Nat.min (Nat.max (ssearch xk v) 1) (length xk - 1) - 1)%nat.
Lemma fit_ix_bounds K v : incr K -> (2 <= length K)%nat -> nth 0 K 0 <= v <= nth (length K - 1) K 0 ->
  (S (fit_ix K v) < length K)%nat /\ nth (fit_ix K v) K 0 <= v <= nth (S (fit_ix K v)) K 0.
Proof.
  intros Hi HK Hv. pose proof (ssearch_piece K v Hi) as P. unfold fit_ix. set (i := ssearch K v) in *.
  unfold in_piece in P. destruct P as (P1 & P2 & P3).
  split; [lia|]. destruct (Nat.eq_dec i 0) as [E|E].
  - rewrite E in *. cbn [Nat.max]. replace (Nat.min 1 (length K - 1) - 1)%nat with 0%nat by lia.
    split; [lra|]. apply P3. lia.
  - rewrite Nat.max_l by lia. destruct (Nat.eq_dec i (length K)) as [E2|E2].
    + specialize (P2 (length K - 1)%nat ltac:(lia)). lra.
    + rewrite Nat.min_l by lia. replace (S (i - 1)) with i by lia. split; [|apply P3; lia].
      apply Rlt_le, P2. lia.
Qed.

(* --- shapes ---------------------------------------------------------------------------------------- *)
Lemma size_app' s t : size (s ++ t) = (size s * size t)%nat.
Proof.
  induction s as [|a s IH]; [exact (eq_sym (Nat.mul_1_l _))|]. cbn [app]. change (size (a :: s ++ t)) with (a * size (s ++ t))%nat.
  change (size (a :: s)) with (a * size s)%nat. rewrite IH. lia.
Qed.
Lemma unravel_app s u i t : (i < size s)%nat -> (t < size u)%nat -> unravel (s ++ u) (i * size u + t) = (unravel s i ++ unravel u t)%list.
Proof.
  revert i. induction s as [|a s IH]; intros i Hi Ht; cbn [app unravel].
  - cbn in Hi. assert (i = 0)%nat as -> by lia. reflexivity.
  - assert (size s <> 0)%nat by (cbn in Hi; fold (size s) in Hi; nia).
    rewrite size_app'.
    assert (E : (i * size u + t = size s * size u * (i / size s) + ((i mod size s) * size u + t))%nat).
    { rewrite (Nat.div_mod i (size s)) at 1 by auto. nia. }
    pose proof (Nat.mod_upper_bound i (size s) ltac:(auto)).
    assert (L : ((i mod size s) * size u + t < size s * size u)%nat) by nia.
    rewrite <- (Nat.div_unique _ _ _ _ L E), <- (Nat.mod_unique _ _ _ _ L E). cbn [app]. f_equal. apply IH; auto.
Qed.
Lemma bshape_app a b c u : length b = length c -> bshape b c = Some u -> bshape (a ++ b) c = Some (a ++ u).
Proof.
  intros L. unfold bshape. rewrite rev_app_distr. rewrite <- (rev_length b), <- (rev_length c) in L.
  destruct (brev (rev b) (rev c)) as [v|] eqn:E; [|discriminate]. cbn. intros [= <-].
  replace (brev (rev b ++ rev a) (rev c)) with (Some (v ++ rev a)%list); [cbn; rewrite rev_app_distr, rev_involutive; reflexivity|].
  revert L v E. generalize (rev b) (rev c). clear. induction l as [|x l IH]; intros [|z m] L v; cbn in *; try lia.
  - intros [= <-]. destruct (rev a); reflexivity.
  - destruct (bdim x z); [|discriminate]. destruct (brev l m) as [r|] eqn:E; [|discriminate]. intros [= <-].
    rewrite <- (IH m ltac:(lia) r E). reflexivity.
Qed.
Lemma bto_shape s t : bto s t = true -> bshape s t = Some t.
Proof. intros H. rewrite bshape_comm. apply bshape_of_bto; auto. Qed.
Lemma nd_map2_add0 (a : nd R) s u : bshape (shp a) s = Some u ->
  exists r, nd_map2 nadd a (full s 0) = Ok r /\ shp r = u /\ forall idx, get r idx = bget a idx.
Proof.
  intros H. unfold nd_map2. cbn [full shp]. rewrite H. eexists. split; [reflexivity|]. split; [reflexivity|].
  intros idx. cbn [get]. unfold bget at 2. cbn [full get]. numR. ring.
Qed.

Lemma mapM_total {A B} (f : A -> res B) l : (forall a, In a l -> exists b, f a = Ok b) -> exists r, mapM f l = Ok r.
Proof.
  induction l as [|a l IH]; intros H; [exists []; reflexivity|]. destruct (H a (or_introl eq_refl)) as [b Hb].
  destruct (IH (fun c Hc => H c (or_intror Hc))) as [r Hr]. cbn [mapM]. rewrite Hb. cbn [bind]. rewrite Hr. exists (b :: r). reflexivity.
Qed.

(* --- _splfit_args ------------------------------------------------------------------------------------ *)
(* the shapes fit: y has shape ysh + ts where ts and x broadcast to us; sigy broadcasts to
   ysh + us, the boundary values to ysh *)
Record conform (x y : nd R) (sigy : option (nd R)) (lo hi : list (nd R)) (ysh us : list nat) : Prop := {
  cf_y : exists ts, shp y = (ysh ++ ts)%list /\ length ts = ndim x /\ bshape ts (shp x) = Some us;
  cf_s : forall sg, sigy = Some sg -> bto (shp sg) (ysh ++ us) = true;
  cf_lo : Forall (fun b => bto (shp b) ysh = true) lo;
  cf_hi : Forall (fun b => bto (shp b) ysh = true) hi }.
(* point t, the value and the error of component comp there *)
Definition dX (x : nd R) (us : list nat) (t : nat) : R := bget x (unravel us t).
Definition dY (y : nd R) (us comp : list nat) (t : nat) : R := bget y (comp ++ unravel us t).
Definition dS (sigy : option (nd R)) (us comp : list nat) (t : nat) : R :=
  match sigy with None => 1 | Some sg => bget sg (comp ++ unravel us t) end.

Lemma bc_flat l ysh : Forall (fun b => bto (shp b) ysh = true) l ->
  exists r, mapM (fun b => bind (nd_map2 nadd b (full ysh 0)) (fun b => Ok (flat b))) l = Ok r /\ length r = length l /\
    forall m comp, (m < length l)%nat -> inb comp ysh ->
      nth_error (nth m r []) (ravel ysh comp) = Some (bget (nth m l (full [] 0)) comp).
Proof.
  induction 1 as [|b l Hb _ IH]; cbn [mapM].
  - exists []. split; [reflexivity|]. split; [reflexivity|]. intros m comp H. cbn in H. lia.
  - destruct IH as (r & E & L & H). destruct (nd_map2_add0 b ysh ysh (bto_shape _ _ Hb)) as (c & Ec & Sc & Gc).
    rewrite Ec. cbn [bind]. rewrite E. cbn [bind]. eexists. split; [reflexivity|]. split; [cbn; lia|].
    intros [|m] comp Hm Hc; cbn [nth].
    + rewrite nth_error_nth' with (d := 0).
      * rewrite flat_nth by (rewrite Sc; apply ravel_lt; auto). rewrite Sc, unravel_ravel, Gc by auto. reflexivity.
      * rewrite flat_length, Sc. apply ravel_lt; auto.
    + apply H; auto. cbn in Hm. lia.
Qed.
Lemma fit_args_ok xk x y sigy lo hi ysh us : conform x y sigy lo hi ysh us -> (length ysh <= 1)%nat -> size ysh <> 0%nat ->
  exists d, fit_args xk x y sigy lo hi = Ok d /\ fN d = size us /\ fm d = size ysh /\ fysh d = ysh /\
    length (flo d) = length lo /\ length (fhi d) = length hi /\
    (forall t, (t < size us)%nat -> fx d t = dX x us t /\ fix_ d t = fit_ix xk (dX x us t)) /\
    (forall comp t, inb comp ysh -> (t < size us)%nat ->
       fy d (ravel ysh comp) t = dY y us comp t /\ fs d (ravel ysh comp) t = dS sigy us comp t) /\
    (forall m comp, (m < length lo)%nat -> inb comp ysh ->
       nth_error (nth m (flo d) []) (ravel ysh comp) = Some (bget (nth m lo (full [] 0)) comp)) /\
    (forall m comp, (m < length hi)%nat -> inb comp ysh ->
       nth_error (nth m (fhi d) []) (ravel ysh comp) = Some (bget (nth m hi (full [] 0)) comp)).
Proof.
  intros [(ts & Sy & Lt & Bu) Hs Hlo Hhi] Hl Hsz. unfold fit_args.
  assert (ND : (Z.of_nat (ndim y) - Z.of_nat (ndim x) = Z.of_nat (length ysh))%Z) by (unfold ndim in *; rewrite Sy, app_length; lia).
  rewrite ND. change (@n0 R NumR) with 0.
  assert (B1 : bshape (shp y) (shp x) = Some (ysh ++ us)) by (rewrite Sy; apply bshape_app; auto).
  destruct (nd_map2_add0 y (shp x) (ysh ++ us) B1) as (y1 & Ey & Sy1 & Gy1). rewrite Ey. cbn [bind].
  destruct (Z.ltb_spec (Z.of_nat (length ysh)) 0); [lia|]. unfold ndim. rewrite Nat2Z.id, Sy1.
  replace (Nat.min (length ysh) (length (ysh ++ us))) with (length ysh) by (rewrite app_length; lia).
  rewrite skipn_app, skipn_all, Nat.sub_diag, firstn_app, firstn_all, Nat.sub_diag. cbn [app skipn firstn]. rewrite app_nil_r.
  assert (Bx : bto (shp x) us = true) by (apply bshape_bto in Bu; apply Bu).
  destruct (nd_map2_add0 x us us (bto_shape _ _ Bx)) as (x1 & Ex & Sx1 & Gx1). rewrite Ex. cbn [bind].
  assert (S1 : exists s1, (match sigy with None => Ok (full (ysh ++ us) n1) | Some sg => nd_map2 nadd sg (full (ysh ++ us) 0) end) = Ok s1 /\
     shp s1 = (ysh ++ us)%list /\ forall idx, get s1 idx = match sigy with None => 1 | Some sg => bget sg idx end).
  { destruct sigy as [sg|].
    - destruct (nd_map2_add0 sg (ysh ++ us) (ysh ++ us) (bto_shape _ _ (Hs sg eq_refl))) as (s1 & A & B & C). exists s1. auto.
    - eexists. split; [reflexivity|]. split; reflexivity. }
  destruct S1 as (s1 & Es & Ss1 & Gs1). rewrite Es. cbn [bind]. rewrite flat_length, Sx1.
  destruct (bc_flat lo ysh Hlo) as (rlo & Elo & Llo & Glo). destruct (bc_flat hi ysh Hhi) as (rhi & Ehi & Lhi & Ghi).
  set (shape := ((if (Z.of_nat (length ysh) =? 0)%Z then [1%nat] else ysh) ++ [size us])%list).
  assert (SH : shape = [size ysh; size us]).
  { unfold shape. destruct ysh as [|m [|]]; cbn in Hl; try lia; cbn; [reflexivity|]. rewrite Nat.mul_1_r. reflexivity. }
  assert (SZ : size shape = size (ysh ++ us)) by (rewrite SH, size_app'; cbn; lia).
  unfold reshape. rewrite Sy1, Ss1, SZ, Nat.eqb_refl. cbn [bind].
  rewrite Elo. cbn [bind]. rewrite Ehi. cbn [bind]. rewrite SH. destruct (Nat.eqb_spec (size ysh) 0) as [E0|_]; [contradiction|].
  eexists. split; [reflexivity|]. cbn [fN fx fm fy fs fix_ fysh flo fhi]. split; [reflexivity|]. split; [reflexivity|].
  split; [reflexivity|]. split; [auto|]. split; [auto|].
  assert (FX : forall t, (t < size us)%nat -> nth t (flat x1) 0 = dX x us t).
  { intros t Ht. rewrite flat_nth, Sx1, Gx1 by (rewrite Sx1; auto). reflexivity. }
  split; [|split; [|split]].
  - intros t Ht. change (@n0 R NumR) with 0. rewrite FX by auto. split; reflexivity.
  - intros comp t Hc Ht. cbn [get]. assert (RV : ravel [size ysh; size us] [ravel ysh comp; t] = (ravel ysh comp * size us + t)%nat) by (cbn; lia).
    rewrite RV, unravel_app, unravel_ravel by (auto; apply ravel_lt; auto). rewrite Gy1, Gs1. unfold dY, dS.
    split; [reflexivity|]. destruct sigy; reflexivity.
  - exact Glo.
  - exact Ghi.
Qed.
(* two or more leading dimensions of y *)
Lemma fit_args_rank xk x y sigy lo hi ysh us : conform x y sigy lo hi ysh us -> (2 <= length ysh)%nat -> size ysh <> 0%nat ->
  fit_args xk x y sigy lo hi = Err ValueError.
Proof.
  intros [(ts & Sy & Lt & Bu) Hs Hlo Hhi] Hl Hsz. unfold fit_args.
  assert (ND : (Z.of_nat (ndim y) - Z.of_nat (ndim x) = Z.of_nat (length ysh))%Z) by (unfold ndim in *; rewrite Sy, app_length; lia).
  rewrite ND. change (@n0 R NumR) with 0.
  assert (B1 : bshape (shp y) (shp x) = Some (ysh ++ us)) by (rewrite Sy; apply bshape_app; auto).
  destruct (nd_map2_add0 y (shp x) (ysh ++ us) B1) as (y1 & Ey & Sy1 & Gy1). rewrite Ey. cbn [bind].
  destruct (Z.ltb_spec (Z.of_nat (length ysh)) 0); [lia|]. unfold ndim. rewrite Nat2Z.id, Sy1.
  replace (Nat.min (length ysh) (length (ysh ++ us))) with (length ysh) by (rewrite app_length; lia).
  rewrite skipn_app, skipn_all, Nat.sub_diag, firstn_app, firstn_all, Nat.sub_diag. cbn [app skipn firstn]. rewrite app_nil_r.
  assert (Bx : bto (shp x) us = true) by (apply bshape_bto in Bu; apply Bu).
  destruct (nd_map2_add0 x us us (bto_shape _ _ Bx)) as (x1 & Ex & Sx1 & Gx1). rewrite Ex. cbn [bind].
  assert (S1 : exists s1, (match sigy with None => Ok (full (ysh ++ us) n1) | Some sg => nd_map2 nadd sg (full (ysh ++ us) 0) end) = Ok s1 /\
     shp s1 = (ysh ++ us)%list).
  { destruct sigy as [sg|].
    - destruct (nd_map2_add0 sg (ysh ++ us) (ysh ++ us) (bto_shape _ _ (Hs sg eq_refl))) as (s1 & A & B & C). exists s1. auto.
    - eexists. split; reflexivity. }
  destruct S1 as (s1 & Es & Ss1). rewrite Es. cbn [bind]. rewrite flat_length, Sx1.
  destruct (bc_flat lo ysh Hlo) as (rlo & Elo & _). destruct (bc_flat hi ysh Hhi) as (rhi & Ehi & _).
  destruct (Z.eqb_spec (Z.of_nat (length ysh)) 0); [lia|].
  unfold reshape. rewrite Sy1, Ss1, !size_app'. replace (size [size us]) with (size us) by (cbn; lia). rewrite Nat.eqb_refl. cbn [bind].
  rewrite Elo. cbn [bind]. rewrite Ehi. cbn [bind]. destruct ysh as [|a [|b ysh]]; cbn in Hl; try lia. cbn [app].
  destruct (Nat.eqb_spec a 0) as [->|]; [cbn in Hsz; lia|]. destruct ysh; reflexivity.
Qed.
