(* deriv, p(x,nd), jumps, negation, component selection, copies, periodic
   reduction: facts over the reals. *)
From Coq Require Import Reals List Arith Lia Lra ZArith Bool.
From Verif Require Import Num PyBase NdArray Poly SpecPoly PolyProofs PwPoly PwBase.
Import ListNotations.
Local Open Scope R_scope.

(* ---- one column ---- *)
Lemma dcol_length (c : list R) : length (dcol c) = (length c - 1)%nat.
Proof. unfold dcol. rewrite zipw_length, seq_length. destruct c; cbn; lia. Qed.
Lemma zipw_seq_S (l : list R) s x :
  peval (zipw (fun a k => a * INR k) l (seq (S s) (length l))) x =
  peval (zipw (fun a k => a * INR k) l (seq s (length l))) x + peval l x.
Proof.
  revert s; induction l as [|a l IH]; intros s; cbn [length seq zipw].
  - unfold peval; cbn; ring.
  - rewrite !peval_cons, IH, S_INR. ring.
Qed.
Lemma dcol_peval c x : peval (dcol c) x = tay 1 c x.
Proof.
  unfold dcol. destruct c as [|a l]; [reflexivity|]. cbn [tl length].
  replace (S (length l) - 1)%nat with (length l) by lia.
  assert (E : zipw (fun (a0 : R) (k : nat) => (a0 * nofnat k)%K) l (seq 1 (length l)) =
              zipw (fun a k => a * INR k) l (seq 1 (length l))).
  { generalize (seq 1 (length l)). clear. induction l as [|b l IH]; intros [|s q]; cbn [zipw]; auto.
    rewrite IH, nofnat_R. reflexivity. }
  rewrite E; clear E. change (tay 1 (a :: l) x) with (x * tay 1 l x + tay 0 l x). clear a.
  induction l as [|b l IH]; [unfold peval; cbn; ring|].
  cbn [length seq zipw]. rewrite peval_cons, zipw_seq_S, IH.
  change (tay 1 (b :: l) x) with (x * tay 1 l x + tay 0 l x).
  change (tay 0 (b :: l) x) with (b + x * tay 0 l x).
  rewrite !tay_0. cbn [INR]. ring.
Qed.
Lemma nderiv_front m f f' g :
  (forall x, derivable_pt_lim f x (f' x)) -> nderiv m f' g -> nderiv (S m) f g.
Proof.
  intros Hd. revert g; induction m as [|m IH]; intros g.
  - cbn. intros H. exists f. split; auto. intros x. rewrite H. apply Hd.
  - intros (h & H1 & H2). exists h. split; auto.
Qed.

Fixpoint dcolm (m : nat) (c : list R) : list R :=
  match m with
  | O => c
  | S m' => if (length c <? 2)%nat then map (fun _ => 0) c else dcolm m' (dcol c)
  end.
Lemma dcolm_length m c : length (dcolm m c) = Nat.max (Nat.min 1 (length c)) (length c - m).
Proof.
  revert c; induction m as [|m IH]; intros c; cbn [dcolm]; [lia|].
  destruct (Nat.ltb_spec (length c) 2).
  - rewrite map_length. lia.
  - rewrite IH, dcol_length. lia.
Qed.
Lemma map_zero_repeat {A} (c : list A) : map (fun _ => 0) c = repeat 0 (length c).
Proof. induction c; cbn; [|rewrite IHc]; reflexivity. Qed.
Lemma dcolm_peval m c x : peval (dcolm m c) x = INR (fact m) * tay m c x.
Proof.
  assert (H : nderiv m (peval c) (peval (dcolm m c))).
  { clear x. revert c; induction m as [|m IH]; intros c; cbn [dcolm].
    - cbn. reflexivity.
    - destruct (Nat.ltb_spec (length c) 2) as [Hl|Hl].
      + apply nderiv_ext with (fun x => INR (fact (S m)) * tay (S m) c x).
        * intros x. rewrite map_zero_repeat, peval_zeros, tay_big by lia. ring.
        * apply nderiv_tay.
      + apply nderiv_front with (peval (dcol c)).
        * intros x. rewrite dcol_peval. apply peval_deriv.
        * apply IH. }
  exact (nderiv_unique m (peval c) _ _ H (nderiv_tay m c) x).
Qed.
Lemma dcolm_pshift m c d : c <> [] -> dcolm m (pshift c d) = pshift (dcolm m c) d.
Proof.
  intros H. assert (Hn : dcolm m c <> []).
  { intros E. apply (f_equal (@length R)) in E. rewrite dcolm_length in E.
    destruct c as [|a c]; [congruence|]. cbn [length] in E. lia. }
  apply peval_inj.
  - rewrite pshift_length, !dcolm_length, pshift_length by assumption. reflexivity.
  - intros x. rewrite pshift_peval, !dcolm_peval, pshift_tay by assumption. reflexivity.
Qed.
Lemma tay_dcolm m k c x : tay k (dcolm m c) x = INR (fact (m + k)) / INR (fact k) * tay (m + k) c x.
Proof.
  assert (N : forall j, INR (fact j) <> 0) by (intros; apply not_0_INR, fact_neq_0).
  assert (H : nderiv (m + k) (peval c) (fun x => INR (fact k) * tay k (dcolm m c) x)).
  { pose proof (nderiv_tay k (dcolm m c)) as H.
    assert (G : forall k g, nderiv k (peval (dcolm m c)) g -> nderiv (m + k) (peval c) g).
    { clear. induction k as [|k IH]; intros g Hg.
      - rewrite Nat.add_0_r. cbn in Hg. apply nderiv_ext with (fun x => INR (fact m) * tay m c x).
        + intros x. rewrite Hg, dcolm_peval. reflexivity.
        + apply nderiv_tay.
      - destruct Hg as (h & H1 & H2). rewrite Nat.add_succ_r. exists h. split; auto. }
    apply G. exact H. }
  pose proof (nderiv_unique (m + k) (peval c) _ _ H (nderiv_tay (m + k) c) x) as E. cbn in E.
  unfold Rdiv. rewrite Rmult_assoc, (Rmult_comm (/ _)), <- Rmult_assoc, <- E. field. auto.
Qed.

Lemma ccol_deriv_c m (c : carr R) comp i : carr_wf c -> inb comp (csh c) -> (i < ck c)%nat ->
  ccol (deriv_c m c) comp i = dcolm m (ccol c comp i).
Proof.
  revert c; induction m as [|m IH]; intros c W Hb Hi; cbn [deriv_c dcolm]; [reflexivity|].
  rewrite (cwf_col c W comp i Hb Hi).
  destruct (Nat.ltb_spec (cn c) 2) as [L|L]; [reflexivity|].
  rewrite IH; auto.
  split; cbn; [lia|]. intros cm j Hc Hj. rewrite dcol_length, (cwf_col c W); auto.
Qed.
Lemma deriv_c_dims m (c : carr R) :
  csh (deriv_c m c) = csh c /\ ck (deriv_c m c) = ck c /\
  ((1 <= cn c)%nat -> cn (deriv_c m c) = Nat.max 1 (cn c - m)).
Proof.
  revert c; induction m as [|m IH]; intros c; cbn [deriv_c].
  - repeat split; auto; lia.
  - destruct (Nat.ltb_spec (cn c) 2) as [L|L]; cbn [csh ck cn].
    + repeat split; auto; lia.
    + destruct (IH (CArr (cn c - 1) (csh c) (ck c) (fun comp i => dcol (ccol c comp i)))) as (A & B & C).
      cbn [csh ck cn] in A, B, C. repeat split; auto. intros. rewrite C; lia.
Qed.
Lemma deriv_c_wf m c : carr_wf c -> carr_wf (deriv_c m c).
Proof.
  intros W. destruct (deriv_c_dims m c) as (A & B & C). specialize (C (cwf_n c W)).
  split; [lia|]. rewrite A, B. intros comp i Hb Hi.
  rewrite ccol_deriv_c, dcolm_length, (cwf_col c W) by auto. pose proof (cwf_n c W). lia.
Qed.
Lemma cons_cols_deriv m xk c : (2 <= ck c)%nat -> carr_wf c -> cons_cols xk c -> cons_cols xk (deriv_c m c).
Proof.
  intros H2 W H comp Hb. destruct (deriv_c_dims m c) as (A & B & C). rewrite A in Hb.
  destruct (H comp Hb) as (E0 & E1). rewrite B.
  rewrite !ccol_deriv_c by (auto; lia). split.
  - rewrite E0; reflexivity.
  - rewrite E1, dcolm_pshift; auto.
    intros E. pose proof (cwf_col c W comp (ck c - 2)%nat Hb ltac:(lia)). rewrite E in H0.
    pose proof (cwf_n c W). cbn in H0; lia.
Qed.

(* two objects with the same class and knots reduce x alike *)
Lemma reduce_same p q x : pw_wf p -> pw_wf q -> pcl p = pcl q -> pxk0 p = pxk0 q ->
  pw_reduce p x = pw_reduce q x.
Proof.
  intros Wp Wq Hc Hx. unfold pw_reduce. rewrite <- Hc. destruct (pcl p) eqn:E; [reflexivity|].
  destruct (wf_per p Wp E) as (_ & -> & _). destruct (wf_per q Wq) as (_ & -> & _); [congruence|].
  unfold pxk. rewrite Hx. reflexivity.
Qed.

(* deriv succeeds; its pieces are the m-th derivatives of the pieces of p *)
Lemma deriv_ok p m : pw_wf p ->
  exists d, deriv p m = Ok d /\ pw_wf d /\ pcl d = pcl p /\ pxk0 d = pxk0 p /\
    csh (pc d) = csh (pc p) /\ cn (pc d) = Nat.max 1 (cn (pc p) - m) /\
    forall comp i, inb comp (csh (pc p)) -> (i < ck (pc p))%nat ->
      ccol (pc d) comp i = dcolm m (ccol (pc p) comp i).
Proof.
  intros W. destruct (deriv_c_dims m (pc p)) as (A & B & C).
  pose proof (ck_eq p W) as Hck.
  destruct (rawinit_ok (pcl p) (pxk0 p) (deriv_c m (pc p))) as (r & E & Wr & R1 & R2 & R3 & R4 & R5 & R6).
  - apply deriv_c_wf, W.
  - rewrite B. apply W.
  - apply W.
  - apply W.
  - apply W.
  - intros HP. destruct (wf_per p W HP) as (P1 & P2 & P3). split; auto.
    apply cons_cols_deriv; auto; [|apply W].
    rewrite Hck. pose proof (wf_nk p W). lia.
  - exists r. split; [exact E|]. split; auto. split; auto. split; auto.
    split; [congruence|]. split; [rewrite R5; apply C; apply (wf_c p W)|].
    intros comp i Hb Hi. rewrite R6 by (rewrite ?A, ?B; auto).
    apply ccol_deriv_c; auto. apply W.
Qed.
Lemma piece_lt p x : pw_wf p -> (ssearch (pxk p) x < ck (pc p))%nat.
Proof. intros W. rewrite ck_eq by auto. pose proof (ssearch_le (pxk p) x). lia. Qed.

(* ---- periodic reduction ---- *)
Definition per_len (p : pwpoly R) : R := nth (length (pxk p) - 1) (pxk p) 0 - nth 0 (pxk p) 0.
Lemma per_len_pos p : pw_wf p -> pcl p = Per -> 0 < per_len p.
Proof.
  intros W E. destruct (wf_per p W E) as (H2 & _). unfold per_len.
  assert (nth 0 (pxk p) 0 < nth (length (pxk p) - 1) (pxk p) 0) by (apply incr_lt; [apply W|lia]). lra.
Qed.
Lemma reduce_Per p x : pw_wf p -> pcl p = Per ->
  exists n : Z, pw_reduce p x = x - IZR n * per_len p /\
    nth 0 (pxk p) 0 <= pw_reduce p x < nth 0 (pxk p) 0 + per_len p.
Proof.
  intros W E. pose proof (per_len_pos p W E) as HT. destruct (wf_per p W E) as (_ & HP & _).
  unfold pw_reduce. rewrite E, HP. fold (per_len p). unfold nmod. numR.
  set (T := per_len p) in *. set (x0 := nth 0 (pxk p) 0).
  set (n := Int_part ((x - x0) / T)). exists n.
  pose proof (Int_part_bounds ((x - x0) / T)) as [B1 B2]. fold n in B1, B2.
  assert (E1 : (x - x0) = ((x - x0) / T) * T) by (field; lra).
  assert (IZR n * T <= x - x0) by (rewrite E1; apply Rmult_le_compat_r; lra).
  assert (x - x0 < (IZR n + 1) * T) by (rewrite E1 at 1; apply Rmult_lt_compat_r; lra).
  split; [ring|]. split; nra.
Qed.
(* uniqueness of the representative *)
Lemma reduce_unique p x y n : pw_wf p -> pcl p = Per ->
  y = x - IZR n * per_len p -> nth 0 (pxk p) 0 <= y < nth 0 (pxk p) 0 + per_len p ->
  pw_reduce p x = y.
Proof.
  intros W E Hy Hb. destruct (reduce_Per p x W E) as (m & Hm & Hbm).
  pose proof (per_len_pos p W E) as HT. rewrite Hm in *. subst y.
  assert (IZR m = IZR n); [|congruence].
  apply IZR_eq. assert (-1 < m - n < 1)%Z; [|lia].
  split; apply lt_IZR; rewrite minus_IZR; nra.
Qed.
Lemma reduce_periodic p x n : pw_wf p -> pcl p = Per ->
  pw_reduce p (x + IZR n * per_len p) = pw_reduce p x.
Proof.
  intros W E. destruct (reduce_Per p x W E) as (m & Hm & Hb).
  apply (reduce_unique p _ _ (n + m)%Z W E); auto. rewrite Hm, plus_IZR. ring.
Qed.
(* if the reduced point is not a knot, the reduction is a fixed translation
   around x *)
Lemma reduce_local p x : pw_wf p -> ~ is_knot (pxk p) (pw_reduce p x) ->
  exists eps z, 0 < eps /\ pw_reduce p x = x - z /\
    forall t, Rabs (t - x) < eps -> pw_reduce p t = t - z.
Proof.
  intros W N. destruct (pcl p) eqn:E.
  - exists 1, 0. rewrite !pw_reduce_Pw by auto. split; [lra|]. split; [ring|].
    intros t _. rewrite pw_reduce_Pw by auto. ring.
  - destruct (reduce_Per p x W E) as (n & Hn & Hb1 & Hb2).
    destruct (wf_per p W E) as (H2 & _ & _).
    assert (H0 : nth 0 (pxk p) 0 < pw_reduce p x).
    { destruct Hb1 as [|E0]; auto. exfalso. apply N. exists 0%nat. split; [lia|auto]. }
    exists (Rmin (pw_reduce p x - nth 0 (pxk p) 0) (nth 0 (pxk p) 0 + per_len p - pw_reduce p x)),
           (IZR n * per_len p).
    split; [apply Rmin_glb_lt; lra|]. split; auto. intros t Ht.
    apply (reduce_unique p _ _ n W E); [ring|].
    pose proof (Rmin_l (pw_reduce p x - nth 0 (pxk p) 0) (nth 0 (pxk p) 0 + per_len p - pw_reduce p x)).
    pose proof (Rmin_r (pw_reduce p x - nth 0 (pxk p) 0) (nth 0 (pxk p) 0 + per_len p - pw_reduce p x)).
    apply Rabs_def2 in Ht. lra.
Qed.

(* ---- derivative of the function value ---- *)
Lemma local_nderiv_shift k f x z v e g : 0 < e ->
  (forall t, Rabs (t - x) < e -> g t = f (t - z)) ->
  local_nderiv k f (x - z) v -> local_nderiv k g x v.
Proof.
  intros He Hg (e1 & F & He1 & HF & G & HG & Hv).
  exists (Rmin e e1), (fun t => F (t - z)). split; [apply Rmin_glb_lt; auto|]. split.
  - intros t Ht. rewrite Hg by (eapply Rlt_le_trans; [exact Ht|apply Rmin_l]).
    apply HF. replace (t - z - (x - z)) with (t - x) by ring.
    eapply Rlt_le_trans; [exact Ht|apply Rmin_r].
  - exists (fun t => G (t - z)). split; auto. apply nderiv_comp_shift; auto.
Qed.
Lemma pw_local_nderiv p comp k x : pw_wf p -> ~ is_knot (pxk p) (pw_reduce p x) ->
  local_nderiv k (pw_val p comp) x
    (let y := pw_reduce p x in let i := ssearch (pxk p) y in
     INR (fact k) * tay k (ccol (pc p) comp i) (y - nth i (pxk0 p) 0)).
Proof.
  intros W N. destruct (reduce_local p x W N) as (e & z & He & Hz & Hl).
  apply (local_nderiv_shift k (base p comp) x z _ e); auto.
  - intros t Ht. rewrite pw_val_base, Hl by auto. reflexivity.
  - rewrite <- Hz. cbv zeta. apply base_local_nderiv; [apply W|].
    apply piece_inside; auto. apply ssearch_piece, W.
Qed.
Lemma deriv_val p m d comp x : pw_wf p -> deriv p m = Ok d -> inb comp (csh (pc p)) ->
  pw_val d comp x =
    (let y := pw_reduce p x in let i := ssearch (pxk p) y in
     INR (fact m) * tay m (ccol (pc p) comp i) (y - nth i (pxk0 p) 0)).
Proof.
  intros W Hd Hb. destruct (deriv_ok p m W) as (d' & E & Wd & D1 & D2 & D3 & D4 & D5).
  rewrite Hd in E; inversion E; subst d'. rewrite pw_val_base.
  rewrite (reduce_same d p x) by auto. unfold base. cbv zeta.
  unfold pxk at 1 2. rewrite D2. fold (pxk p). rewrite D5 by (auto; apply piece_lt; auto).
  apply dcolm_peval.
Qed.

(* p(x, nd) *)
Lemma pw_vals_nth p comp x nd k : pw_wf p -> inb comp (csh (pc p)) -> (k <= nd)%nat ->
  (2 <= cn (pc p))%nat \/ nd = 0%nat -> (k <= 20 \/ cn (pc p) <= k)%nat ->
  nth k (pw_vals p comp x nd) 0 =
    (let y := pw_reduce p x in let i := ssearch (pxk p) y in
     INR (fact k) * tay k (ccol (pc p) comp i) (y - nth i (pxk0 p) 0)).
Proof.
  intros W Hb Hk Hc Hf. unfold pw_vals. cbv zeta. set (y := pw_reduce p x). set (i := ssearch (pxk p) y).
  assert (HL : length (ccol (pc p) comp i) = cn (pc p)) by (apply (cwf_col _ (wf_c p W)); auto; apply piece_lt; auto).
  pose proof (cwf_n _ (wf_c p W)).
  destruct nd as [|nd].
  - assert (k = 0%nat) by lia. subst k. cbn [nth]. rewrite horner_peval, tay_0. cbn. numR. ring.
  - rewrite taylor_tlist by lia. rewrite denorm_nth.
    2:{ destruct Hf as [Hf|Hf]; [auto|]. right. rewrite tlist_nth by lia. apply tay_big. lia. }
    2:{ rewrite tlist_length; lia. }
    rewrite tlist_nth by lia. numR. ring.
Qed.
Lemma pw_vals_length p comp x nd : pw_wf p -> inb comp (csh (pc p)) -> length (pw_vals p comp x nd) = S nd.
Proof.
  intros W Hb. unfold pw_vals. destruct nd; [reflexivity|]. rewrite denorm_length.
  set (i := ssearch (pxk p) (pw_reduce p x)).
  assert (HL : length (ccol (pc p) comp i) = cn (pc p)) by (apply (cwf_col _ (wf_c p W)); auto; apply piece_lt; auto).
  pose proof (cwf_n _ (wf_c p W)).
  destruct (ccol (pc p) comp i) as [|a [|b c]] eqn:E.
  - cbn in HL; lia.
  - rewrite taylor_single. cbn. rewrite repeat_length. reflexivity.
  - rewrite taylor_tlist by (cbn; lia). apply tlist_length.
Qed.

(* ---- columnwise maps that commute with pshift ---- *)
Lemma peval_map_opp c x : peval (map Ropp c) x = - peval c x.
Proof. induction c as [|a c IH]; cbn [map]; [unfold peval; cbn; ring|]. rewrite !peval_cons, IH. ring. Qed.
Lemma map_opp_pshift c d : c <> [] -> map Ropp (pshift c d) = pshift (map Ropp c) d.
Proof.
  intros H. assert (map Ropp c <> []) by (destruct c; cbn; congruence).
  apply peval_inj.
  - rewrite pshift_length, !map_length, pshift_length by assumption. reflexivity.
  - intros x. rewrite pshift_peval, !peval_map_opp, pshift_peval by assumption. reflexivity.
Qed.
Lemma wf_col_nonempty p comp i : pw_wf p -> inb comp (csh (pc p)) -> (i < ck (pc p))%nat ->
  ccol (pc p) comp i <> [].
Proof.
  intros W Hb Hi E. pose proof (cwf_col _ (wf_c p W) comp i Hb Hi) as L. rewrite E in L.
  pose proof (cwf_n _ (wf_c p W)). cbn in L. lia.
Qed.
Lemma pneg_ok p : pw_wf p ->
  exists r, pneg p = Ok r /\ pw_wf r /\ pcl r = pcl p /\ pxk0 r = pxk0 p /\
    csh (pc r) = csh (pc p) /\ cn (pc r) = cn (pc p) /\
    forall comp x, inb comp (csh (pc p)) -> pw_val r comp x = - pw_val p comp x.
Proof.
  intros W. pose proof (ck_eq p W) as Hck.
  destruct (rawinit_ok (pcl p) (pxk0 p)
     (CArr (cn (pc p)) (csh (pc p)) (ck (pc p)) (fun comp i => map nopp (ccol (pc p) comp i))))
    as (r & E & Wr & R1 & R2 & R3 & R4 & R5 & R6).
  - split; cbn; [apply (wf_c p W)|]. intros comp i Hb Hi. rewrite map_length. apply (wf_c p W); auto.
  - apply W.
  - apply W.
  - apply W.
  - apply W.
  - intros HP. destruct (wf_per p W HP) as (P1 & P2 & P3). split; auto.
    intros comp Hb. cbn in Hb. destruct (P3 comp Hb) as (E0 & E1). cbn [ccol ck]. split.
    + rewrite E0; reflexivity.
    + rewrite E1. apply map_opp_pshift. apply wf_col_nonempty; auto. lia.
  - exists r. split; [exact E|]. repeat (split; auto). intros comp x Hb.
    rewrite !pw_val_base, (reduce_same r p x) by auto. unfold base.
    unfold pxk at 1 2. rewrite R2. fold (pxk p).
    rewrite R6 by (auto; apply piece_lt; auto). cbn [ccol]. apply peval_map_opp.
Qed.

(* component selection *)
Lemma norm_key_inb s key k : norm_key s key = Ok k ->
  length k = length key /\ (length key <= length s)%nat /\ inb k (firstn (length key) s) /\
  forall comp, inb comp (skipn (length key) s) -> inb (k ++ comp) s.
Proof.
  revert s k; induction key as [|z key IH]; intros s k H; cbn [norm_key] in H.
  - destruct s; inversion H; subst; cbn; repeat split; auto; try lia; constructor.
  - destruct s as [|d s]; cbn [norm_key] in H; [discriminate|].
    destruct (py_index d z) as [i|] eqn:Ei; cbn [of_opt bind] in H; [|discriminate].
    destruct (norm_key s key) as [r|] eqn:Er; cbn [bind] in H; [|discriminate].
    inversion H; subst. destruct (IH _ _ Er) as (A & B & C & D). cbn.
    assert (i < d)%nat.
    { unfold py_index in Ei. destruct (Z.ltb_spec z 0).
      - destruct (Z.ltb_spec (Z.of_nat d + z) 0); inversion Ei; subst. lia.
      - destruct (Z.ltb_spec z (Z.of_nat d)); inversion Ei; subst. lia. }
    repeat split; try lia.
    + constructor; auto.
    + intros comp Hc. constructor; auto. apply D; auto.
Qed.
Lemma pgetitem_ok p key k : pw_wf p -> norm_key (csh (pc p)) key = Ok k ->
  exists r, pgetitem p key = Ok r /\ pw_wf r /\ pcl r = pcl p /\ pxk0 r = pxk0 p /\
    csh (pc r) = skipn (length key) (csh (pc p)) /\ cn (pc r) = cn (pc p) /\
    forall comp x, inb comp (skipn (length key) (csh (pc p))) ->
      pw_val r comp x = pw_val p (k ++ comp) x.
Proof.
  intros W Hk. pose proof (ck_eq p W) as Hck.
  destruct (norm_key_inb _ _ _ Hk) as (_ & _ & _ & Hin).
  unfold pgetitem. rewrite Hk. cbn [bind].
  destruct (rawinit_ok (pcl p) (pxk0 p)
     (CArr (cn (pc p)) (skipn (length key) (csh (pc p))) (ck (pc p)) (fun comp i => ccol (pc p) (k ++ comp) i)))
    as (r & E & Wr & R1 & R2 & R3 & R4 & R5 & R6).
  - split; cbn; [apply (wf_c p W)|]. intros comp i Hb Hi. apply (wf_c p W); auto.
  - apply W.
  - apply W.
  - apply W.
  - apply W.
  - intros HP. destruct (wf_per p W HP) as (P1 & P2 & P3). split; auto.
    intros comp Hb. cbn in Hb. destruct (P3 (k ++ comp) (Hin _ Hb)) as (E0 & E1). cbn [ccol ck]. split; auto.
  - exists r. split; [exact E|]. repeat (split; auto). intros comp x Hb.
    rewrite !pw_val_base, (reduce_same r p x) by auto. unfold base.
    unfold pxk at 1 2. rewrite R2. fold (pxk p).
    rewrite R6 by (auto; apply piece_lt; auto). reflexivity.
Qed.
Lemma norm_key_err s key e : norm_key s key = Err e -> e = IndexError.
Proof.
  revert s; induction key as [|z key IH]; intros s H; cbn [norm_key] in H; [destruct s; discriminate|].
  destruct s as [|d s]; cbn [norm_key] in H; [congruence|].
  destruct (py_index d z); cbn [of_opt bind] in H; [|congruence].
  destruct (norm_key s key) eqn:E; cbn [bind] in H; [discriminate|]. apply (IH s). congruence.
Qed.

(* ---- jumps ---- *)
Lemma jumps_ok p n : pw_wf p -> (2 <= cn (pc p))%nat \/ n = Some 0%nat \/ n = None ->
  match n with Some m => (m < cn (pc p))%nat | None => True end ->
  let N := match n with Some m => m | None => (cn (pc p) - 1)%nat end in
  exists J, jumps p n = Ok (S N, J) /\
    forall comp k i, inb comp (csh (pc p)) -> (k <= N)%nat -> (i < length (pxk p))%nat ->
      J comp k i = nth k (ccol (pc p) comp (S i)) 0 -
                   tay k (ccol (pc p) comp i) (nth i (pxk p) 0 - nth i (pxk0 p) 0).
Proof.
  intros W Hc Hn N. unfold jumps. fold N.
  pose proof (cwf_n _ (wf_c p W)) as Hn1.
  assert (HN : (N < cn (pc p))%nat) by (clear Hc; subst N; destruct n; lia).
  destruct (Nat.eqb_spec (cn (pc p)) 0); [lia|].
  replace (Nat.min (S N) (cn (pc p))) with (S N) by lia. rewrite Nat.eqb_refl. cbn [orb].
  eexists. split; [reflexivity|]. intros comp k i Hb Hk Hi. cbv beta. numR.
  unfold dxs. rewrite pxk0_S. numR.
  assert (HL : length (ccol (pc p) comp i) = cn (pc p)).
  { apply (wf_c p W); auto. rewrite ck_eq by auto. lia. }
  rewrite taylor_tlist, tlist_nth; auto.
  - destruct (Nat.eqb_spec (S N) 1) as [E|E]; [|reflexivity]. assert (k = 0)%nat by lia. subst; reflexivity.
  - rewrite HL. destruct Hc as [|[->| ->]]; [left; lia|right; split; [lia|reflexivity]|].
    unfold N. destruct (Nat.eq_dec (cn (pc p)) 1); [right; lia|left; lia].
Qed.
