(* C30-C33, C44, C47, C49, C50: evaluation, derivatives, components, jumps,
   periodicity and copies of piecewise polynomials (npplus/pwpoly.py:299-811). *)
From Coq Require Import Reals List Arith Lia Lra ZArith.
From Verif Require Import Num PyBase NdArray Poly SpecPoly PolyProofs PwPoly PwBase PwDeriv.
Import ListNotations.
Local Open Scope R_scope.

(* A concrete piecewise polynomial: 0 up to 0, x on (0,1], 3 beyond 1. *)
Definition ex_p : pwpoly R :=
  PwP Pw [0; 0; 1] (CArr 2 [] 3 (fun _ i => nth i [[0; 0]; [0; 1]; [3; 0]] [])) None.
Example ex_p_wf : pw_wf ex_p.
Proof.
  split; cbn; try lia; try reflexivity.
  - split; cbn; [lia|]. intros comp i _ Hi. destruct i as [|[|[|i]]]; cbn; reflexivity || lia.
  - intros [|i] Hi; cbn in *; [lra|lia].
  - discriminate.
Qed.
(* A concrete periodic one: |x-1/2| shape on [0,1]. *)
Definition ex_per : pwpoly R :=
  PwP Per [0; 0; 1; 2] (CArr 2 [] 4 (fun _ i => nth i [[0; 1]; [0; 1]; [1; -1]; [0; -1]] [])) (Some 2).
Example ex_per_wf : pw_wf ex_per.
Proof.
  split; cbn; try lia; try reflexivity.
  - split; cbn; [lia|]. intros comp i _ Hi. destruct i as [|[|[|[|i]]]]; cbn; reflexivity || lia.
  - intros [|[|i]] Hi; cbn in *; [lra|lra|lia].
  - intros _. split; [lia|]. split; [f_equal; ring|]. intros comp _. cbn. split; [reflexivity|].
    unfold pshift, taylor; cbn. numR. repeat (f_equal; try ring).
Qed.

(* Every x lies in exactly one piece and p(x) is the value of that piece's
   polynomial in powers of x minus the piece's left knot. *)
Theorem C30_eval_piece : forall (p : pwpoly R) (comp : list nat) (x : R),
  pw_wf p -> pcl p = Pw -> inb comp (csh (pc p)) ->
  exists i, in_piece (pxk p) i x /\ (forall j, in_piece (pxk p) j x -> j = i) /\
    pw_call p comp x = Ok (peval (ccol (pc p) comp i) (x - left_knot (pxk p) i)).
Proof.
  intros p comp x W HP Hb. exists (ssearch (pxk p) x).
  pose proof (ssearch_piece (pxk p) x (wf_inc p W)) as Hi.
  split; auto. split; [intros j Hj; apply (in_piece_unique _ _ _ x Hj Hi)|].
  rewrite pw_call_wf by auto. rewrite pw_val_base, pw_reduce_Pw by auto. unfold base. do 3 f_equal.
  destruct (ssearch (pxk p) x); cbn [left_knot]; [apply W|apply pxk0_S].
Qed.
Example C30_case : pw_call ex_p [] (1/2) = Ok (1/2).
Proof.
  destruct (C30_eval_piece ex_p [] (1/2) ex_p_wf eq_refl (Forall2_nil _)) as (i & Hi & _ & E). rewrite E.
  assert (in_piece (pxk ex_p) 1 (1/2)) as H1.
  { split; [cbn; lia|]. split; intros j Hj; cbn in *.
    - assert (j = 0)%nat by lia. subst; cbn. lra.
    - assert (j = 1)%nat by lia. subst; cbn. lra. }
  rewrite (in_piece_unique _ _ _ _ Hi H1). unfold peval; cbn. f_equal; lra.
Qed.
Print Assumptions C30_eval_piece.

(* The documented convention xk[i-1] <= x < xk[i] for the coefficients c[...,i]
   holds strictly between the knots, and at xk[i-1] when p is continuous there *)
Theorem C31_interval_convention_partial : forall (p : pwpoly R) (comp : list nat) (x : R) (i : nat),
  pw_wf p -> pcl p = Pw -> inb comp (csh (pc p)) ->
  (1 <= i < length (pxk p))%nat -> nth (i - 1) (pxk p) 0 <= x < nth i (pxk p) 0 ->
  nth (i - 1) (pxk p) 0 < x \/ continuity_pt (pw_val p comp) x ->
  pw_call p comp x = Ok (peval (ccol (pc p) comp i) (x - nth (i - 1) (pxk p) 0)).
Proof.
  intros p comp x i W HP Hb Hi Hx Hc. rewrite pw_call_wf by auto. f_equal.
  destruct i as [|i]; [lia|]. replace (S i - 1)%nat with i in * by lia.
  destruct (Rle_lt_or_eq_dec _ _ (proj1 Hx)) as [L|E].
  - rewrite pw_val_base, pw_reduce_Pw by auto. rewrite (base_piece p comp (S i) x); [|apply W|].
    + rewrite pxk0_S. reflexivity.
    + split; [lia|]. split; intros j Hj.
      * apply Rle_lt_trans with (nth i (pxk p) 0); auto. apply incr_le; [apply W|lia].
      * apply Rle_trans with (nth (S i) (pxk p) 0); [lra|]. apply incr_le; [apply W|lia].
  - destruct Hc as [|Hc]; [lra|]. rewrite <- E in *.
    assert (Hc' : continuity_pt (base p comp) (nth i (pxk p) 0)).
    { apply (cont_local _ (pw_val p comp) _ 1); [lra| |exact Hc].
      intros t _. rewrite pw_val_base, pw_reduce_Pw by auto. reflexivity. }
    apply base_continuous_knot in Hc'; [|apply W|lia]. unfold match_at in Hc'. rewrite tay_0 in Hc'.
    rewrite pw_val_base, pw_reduce_Pw by auto. rewrite base_knot by (apply W || lia).
    rewrite Hc'. replace (nth i (pxk p) 0 - nth i (pxk p) 0) with 0 by ring. rewrite peval_0. reflexivity.
Qed.
Print Assumptions C31_interval_convention_partial.
(* At a knot with a jump the code uses the piece on the left: the documented
   convention is false. *)
Theorem C31_interval_convention_refuted : exists (p : pwpoly R) (x : R) (i : nat) (v : R),
  pw_wf p /\ pcl p = Pw /\ inb [] (csh (pc p)) /\ (1 <= i <= length (pxk p))%nat /\
  nth (i - 1) (pxk p) 0 <= x /\ (forall j, (i <= j < length (pxk p))%nat -> x < nth j (pxk p) 0) /\
  pw_call p [] x = Ok v /\ v <> peval (ccol (pc p) [] i) (x - nth (i - 1) (pxk p) 0).
Proof.
  exists ex_p, 1, 2%nat, 1. split; [apply ex_p_wf|]. split; [reflexivity|]. split; [constructor|].
  split; [cbn; lia|]. split; [cbn; lra|]. split; [intros j Hj; cbn in Hj; lia|]. split.
  - rewrite pw_call_wf by apply ex_p_wf. rewrite pw_val_base, pw_reduce_Pw by reflexivity.
    change 1 with (nth 1 (pxk ex_p) 0) at 1. rewrite base_knot by (exact (wf_inc _ ex_p_wf) || (cbn; lia)).
    unfold peval; cbn. f_equal; ring.
  - unfold peval; cbn. lra.
Qed.
Print Assumptions C31_interval_convention_refuted.

(* p(x, nd) is the list of true derivatives 0..nd at x of the piece containing
   x (after reduction to the base period for periodic p): those up to the 20th, and those above the degree. *)
Theorem C32_call_derivatives_partial : forall (p : pwpoly R) (comp : list nat) (x : R) (nd : nat),
  pw_wf p -> inb comp (csh (pc p)) -> (2 <= cn (pc p))%nat \/ nd = 0%nat ->
  exists vs y i n, pw_calln p comp x nd = Ok vs /\ length vs = S nd /\
    match pper p with
    | Some T => pcl p = Per -> y = x - IZR n * T /\ nth 0 (pxk p) 0 <= y < nth 0 (pxk p) 0 + T
    | None => True end /\
    (pcl p = Pw -> y = x) /\ in_piece (pxk p) i y /\
    forall k, (k <= nd)%nat -> (k <= 20 \/ cn (pc p) <= k)%nat ->
      nderiv_at k (fun t => peval (ccol (pc p) comp i) (t - left_knot (pxk p) i)) y (nth k vs 0).
Proof.
  intros p comp x nd W Hb Hc. set (y := pw_reduce p x). set (i := ssearch (pxk p) y).
  destruct (pcl p) eqn:EP.
  - exists (pw_vals p comp x nd), y, i, 0%Z. unfold pw_calln. rewrite pw_ok_wf by auto.
    split; [reflexivity|]. split; [apply pw_vals_length; auto|]. split.
    { destruct (pper p); [discriminate|exact I]. }
    split; [intros _; apply pw_reduce_Pw; auto|]. split; [apply ssearch_piece, W|].
    intros k Hk Hf. eexists. split; [apply nderiv_peval_shift|].
    rewrite pw_vals_nth by auto. cbv zeta. fold y i. do 2 f_equal.
    destruct i; cbn [left_knot]; [rewrite (wf_first p W)|rewrite pxk0_S]; reflexivity.
  - destruct (reduce_Per p x W EP) as (n & Hn & Hbd).
    exists (pw_vals p comp x nd), y, i, n. unfold pw_calln. rewrite pw_ok_wf by auto.
    split; [reflexivity|]. split; [apply pw_vals_length; auto|]. split.
    { destruct (wf_per p W EP) as (_ & -> & _). intros _. fold (per_len p). fold y in Hn, Hbd. auto. }
    split; [discriminate|]. split; [apply ssearch_piece, W|].
    intros k Hk Hf. eexists. split; [apply nderiv_peval_shift|].
    rewrite pw_vals_nth by auto. cbv zeta. fold y i. do 2 f_equal.
    destruct i; cbn [left_knot]; [rewrite (wf_first p W)|rewrite pxk0_S]; reflexivity.
Qed.
Example C32_case : pw_wf ex_p /\ inb [] (csh (pc ex_p)) /\ (2 <= cn (pc ex_p))%nat.
Proof. split; [apply ex_p_wf|]. split; [constructor|cbn; lia]. Qed.
Print Assumptions C32_call_derivatives_partial.
(* A piecewise constant function: p(x, 1) claims the derivative is the value. *)
Theorem C32_call_derivatives_refuted : exists (p : pwpoly R) (x : R) (vs : list R),
  pw_wf p /\ pcl p = Pw /\ inb [] (csh (pc p)) /\ pw_calln p [] x 1 = Ok vs /\
  exists i, in_piece (pxk p) i x /\
    ~ nderiv_at 1 (fun t => peval (ccol (pc p) [] i) (t - left_knot (pxk p) i)) x (nth 1 vs 0).
Proof.
  set (p := PwP Pw [0; 0] (CArr 1 [] 2 (fun _ _ => [1])) None : pwpoly R).
  exists p, 0, [1; 1].
  assert (W : pw_wf p).
  { split; cbn; try lia; try reflexivity.
    - split; cbn; [lia|]. reflexivity.
    - intros i Hi; cbn in *; lia.
    - discriminate. }
  split; auto. split; [reflexivity|]. split; [constructor|]. split.
  - unfold pw_calln. rewrite pw_ok_wf by auto. cbn [bind]. unfold pw_vals.
    rewrite pw_reduce_Pw by reflexivity. cbv zeta. cbn [pc ccol p]. rewrite taylor_single. cbn. numR. repeat (f_equal; try ring).
  - exists 0%nat. split; [split; [cbn; lia|]; split; intros j Hj; cbn in *; [lia|assert (j = 0)%nat by lia; subst; lra]|].
    intros (g & Hg & E). cbn [nth] in E.
    pose proof (nderiv_unique 1 _ _ _ Hg (nderiv_peval_shift 1 [1] 0) 0) as U. cbn in U. lra.
Qed.
Print Assumptions C32_call_derivatives_refuted.

(* p.deriv(m) always succeeds, keeps class, knots and component shape, and its
   value is the m-th derivative of p at every x that is not (congruent to) a
   knot; everywhere it is the m-th derivative of the piece; it agrees with
   p(x, m)[m]. *)
Theorem C33_deriv_partial : forall (p : pwpoly R) (m : nat), pw_wf p ->
  exists d, deriv p m = Ok d /\ pw_wf d /\ pcl d = pcl p /\ pxk d = pxk p /\
    pshape d = pshape p /\ pdeg d = (pdeg p - m)%nat /\
    forall comp x, inb comp (csh (pc p)) ->
      pw_call d comp x = Ok (pw_val d comp x) /\
      ((forall j n, (j < length (pxk p))%nat ->
          match pcl p with Pw => x <> nth j (pxk p) 0
                         | Per => x <> nth j (pxk p) 0 + IZR n * per_len p end) ->
       local_nderiv m (pw_val p comp) x (pw_val d comp x)) /\
      (pcl p = Pw -> forall i, in_piece (pxk p) i x ->
         nderiv_at m (fun t => peval (ccol (pc p) comp i) (t - left_knot (pxk p) i)) x (pw_val d comp x)) /\
      ((2 <= cn (pc p))%nat -> (m <= 20 \/ cn (pc p) <= m)%nat -> exists vs, pw_calln p comp x m = Ok vs /\ nth m vs 0 = pw_val d comp x).
Proof.
  intros p m W. destruct (deriv_ok p m W) as (d & E & Wd & D1 & D2 & D3 & D4 & D5).
  exists d. split; auto. split; auto. split; auto. split; [unfold pxk; congruence|].
  split; [exact D3|]. split; [unfold pdeg; rewrite D4; pose proof (cwf_n _ (wf_c p W)); lia|].
  intros comp x Hb. split; [apply pw_call_wf; auto|].
  pose proof (deriv_val p m d comp x W E Hb) as V. split; [|split].
  - intros Hk. rewrite V. apply pw_local_nderiv; auto.
    intros (j & Hj & Ek). destruct (pcl p) eqn:EP.
    + rewrite pw_reduce_Pw in Ek by auto. exact (Hk j 0%Z Hj Ek).
    + destruct (reduce_Per p x W EP) as (n & Hn & _). rewrite Hn in Ek. apply (Hk j n Hj). lra.
  - intros EP i Hi. rewrite V. cbv zeta. rewrite pw_reduce_Pw by auto.
    rewrite (ssearch_unique _ i x (wf_inc p W) Hi).
    eexists. split; [apply nderiv_peval_shift|]. cbv beta. do 2 f_equal.
    destruct i; cbn [left_knot]; [rewrite (wf_first p W)|rewrite pxk0_S]; reflexivity.
  - intros Hc Hf. exists (pw_vals p comp x m). unfold pw_calln. rewrite pw_ok_wf by auto.
    split; [reflexivity|]. rewrite V, pw_vals_nth by auto. reflexivity.
Qed.
Example C33_case : exists d, deriv ex_p 1 = Ok d /\ ccol (pc d) [] 1 = [1 * 1].
Proof. eexists. split; [reflexivity|]. cbn. reflexivity. Qed.
Print Assumptions C33_deriv_partial.
(* 21! does not fit into a 64 bit integer: p(x, nd)[21] is the 21st derivative times -0.083 *)
Lemma calln_wrapped p comp x nd k : pw_wf p -> inb comp (csh (pc p)) -> k = 21%nat -> (k < cn (pc p))%nat -> (k <= nd)%nat ->
  exists d vs, deriv p k = Ok d /\ pw_calln p comp x nd = Ok vs /\ nth k vs 0 = pw_val d comp x * (-4249290049419214848 / 51090942171709440000).
Proof.
  intros W Hb K Hc Hn. destruct (deriv_ok p k W) as (d & E & _). exists d, (pw_vals p comp x nd). split; [exact E|].
  split; [unfold pw_calln; rewrite pw_ok_wf by auto; reflexivity|]. rewrite (deriv_val p k d comp x W E Hb). cbv zeta. unfold pw_vals. cbv zeta.
  set (i := ssearch (pxk p) (pw_reduce p x)).
  assert (HL : length (ccol (pc p) comp i) = cn (pc p)) by (apply (cwf_col _ (wf_c p W)); auto; apply piece_lt; auto).
  destruct nd as [|nd]; [lia|]. rewrite taylor_tlist by lia. rewrite denorm_wrapped by (auto; rewrite tlist_length; lia). rewrite tlist_nth by lia. numR. reflexivity.
Qed.
Theorem C33_factorial_refuted : forall (p : pwpoly R) (comp : list nat) (x : R) (nd : nat),
  pw_wf p -> inb comp (csh (pc p)) -> (21 < cn (pc p))%nat -> (21 <= nd)%nat ->
  exists d vs, deriv p 21 = Ok d /\ pw_calln p comp x nd = Ok vs /\
    nth 21 vs 0 = pw_val d comp x * (-4249290049419214848 / 51090942171709440000).
Proof. intros p comp x nd W Hb. exact (calln_wrapped p comp x nd 21 W Hb eq_refl). Qed.
(* x^21 on both sides of the knot 0 *)
Definition ex_x21 : pwpoly R := PwP Pw [0; 0] (CArr 22 [] 2 (fun _ _ => repeat 0 21 ++ [1])) None.
Example C33_factorial_case : pw_wf ex_x21 /\ inb [] (csh (pc ex_x21)) /\ (21 < cn (pc ex_x21))%nat.
Proof.
  split; [|split; [constructor|cbn; lia]]. split; cbn; try lia; try reflexivity.
  - split; cbn; [lia|]. reflexivity.
  - intros i Hi; cbn in *; lia.
  - discriminate.
Qed.
Print Assumptions C33_factorial_refuted.

(* -p, p[key], len(p) *)
Theorem C44_neg_getitem_len : forall (p : pwpoly R), pw_wf p ->
  (exists r, pneg p = Ok r /\ pcl r = pcl p /\ pxk r = pxk p /\ pshape r = pshape p /\
     forall comp x, inb comp (pshape p) ->
       exists v, pw_call p comp x = Ok v /\ pw_call r comp x = Ok (- v)) /\
  (forall key k, norm_key (pshape p) key = Ok k ->
     exists r, pgetitem p key = Ok r /\ pcl r = pcl p /\ pxk r = pxk p /\
       pshape r = skipn (length key) (pshape p) /\
       forall comp x, inb comp (pshape r) -> pw_call r comp x = pw_call p (k ++ comp) x) /\
  (forall key e, norm_key (pshape p) key = Err e -> pgetitem p key = Err IndexError) /\
  (pshape p = [] -> plen p = Err TypeError) /\
  (forall d s, pshape p = d :: s -> plen p = Ok d).
Proof.
  intros p W. split; [|split; [|split; [|split]]].
  - destruct (pneg_ok p W) as (r & E & Wr & R1 & R2 & R3 & R4 & R5). exists r.
    split; auto. split; auto. split; [unfold pxk; congruence|]. split; auto.
    intros comp x Hb. exists (pw_val p comp x). rewrite !pw_call_wf by auto. split; auto. rewrite R5; auto.
  - intros key k Hk. destruct (pgetitem_ok p key k W Hk) as (r & E & Wr & R1 & R2 & R3 & R4 & R5). exists r.
    split; auto. split; auto. split; [unfold pxk; congruence|]. split; auto.
    intros comp x Hb. unfold pshape in Hb. rewrite R3 in Hb. rewrite !pw_call_wf by auto. rewrite R5; auto.
  - intros key e He. unfold pgetitem. change (csh (pc p)) with (pshape p). rewrite He.
    cbn [bind]. rewrite (norm_key_err _ _ _ He). reflexivity.
  - intros H. unfold plen. change (csh (pc p)) with (pshape p). rewrite H. reflexivity.
  - intros d s H. unfold plen. change (csh (pc p)) with (pshape p). rewrite H. reflexivity.
Qed.
Example C44_case : norm_key [3; 2]%nat [(-1)%Z; 1%Z] = Ok [2; 1]%nat /\ norm_key [3]%nat [3%Z] = Err IndexError.
Proof. split; reflexivity. Qed.
Print Assumptions C44_neg_getitem_len.

(* jumps()[k][i]: k-th Taylor coefficient at knot i of the piece on its right
   minus that of the piece on its left; p continuous iff the jumps of order 0
   vanish. *)
Theorem C47_jumps : forall (p : pwpoly R) (n : option nat), pw_wf p -> pcl p = Pw ->
  (2 <= cn (pc p))%nat \/ n = Some 0%nat \/ n = None ->
  match n with Some m => (m <= pdeg p)%nat | None => True end ->
  exists N J, jumps p n = Ok (S N, J) /\ N = match n with Some m => m | None => pdeg p end /\
    (forall comp k i, inb comp (pshape p) -> (k <= N)%nat -> (i < length (pxk p))%nat ->
      exists a b,
        nderiv_at k (fun t => peval (ccol (pc p) comp (S i)) (t - left_knot (pxk p) (S i)))
                  (nth i (pxk p) 0) (INR (fact k) * a) /\
        nderiv_at k (fun t => peval (ccol (pc p) comp i) (t - left_knot (pxk p) i))
                  (nth i (pxk p) 0) (INR (fact k) * b) /\
        J comp k i = a - b) /\
    (forall comp, inb comp (pshape p) ->
       (forall x, continuity_pt (pw_val p comp) x) <->
       (forall i, (i < length (pxk p))%nat -> J comp 0%nat i = 0)).
Proof.
  intros p n W HP Hc Hn. destruct (jumps_ok p n W Hc) as (J & E & HJ).
  { pose proof (cwf_n _ (wf_c p W)). unfold pdeg in Hn. destruct n; lia. }
  exists (match n with Some m => m | None => pdeg p end), J. split; [exact E|]. split; [reflexivity|].
  split.
  - intros comp k i Hb Hk Hi.
    exists (tay k (ccol (pc p) comp (S i)) (nth i (pxk p) 0 - left_knot (pxk p) (S i))),
           (tay k (ccol (pc p) comp i) (nth i (pxk p) 0 - left_knot (pxk p) i)).
    split; [|split].
    + eexists. split; [apply nderiv_peval_shift|reflexivity].
    + eexists. split; [apply nderiv_peval_shift|reflexivity].
    + rewrite HJ by auto. cbn [left_knot]. replace (nth i (pxk p) 0 - nth i (pxk p) 0) with 0 by ring.
      rewrite tay_at_0. do 3 f_equal.
      destruct i; cbn [left_knot]; [rewrite (wf_first p W)|rewrite pxk0_S]; reflexivity.
  - intros comp Hb.
    assert (EQ : (forall x, continuity_pt (pw_val p comp) x) <-> (forall x, continuity_pt (base p comp) x)).
    { split; intros H x; [apply (cont_local _ (pw_val p comp) x 1)|apply (cont_local _ (base p comp) x 1)];
        auto; try lra; intros t _; rewrite pw_val_base, pw_reduce_Pw; auto. }
    rewrite EQ. rewrite <- base_continuous by apply W. unfold match_at.
    split; intros H i Hi; specialize (H i Hi); rewrite ?HJ in * by (auto; lia); lra.
Qed.
Example C47_case : exists J, jumps ex_p None = Ok (2%nat, J) /\ J [] 0%nat 1%nat = 2.
Proof. eexists. split; [reflexivity|]. cbv -[Rplus Rminus Rmult]. cbn. numR. unfold taylor; cbn; numR. ring. Qed.
Print Assumptions C47_jumps.

(* PerPwPoly: periodic with all derivatives, the stored pieces on the base
   interval, at least two knots required. *)
Theorem C49_periodic : forall (p : pwpoly R), pw_wf p -> pcl p = Per ->
  exists T, pper p = Some T /\ T = nth (length (pxk p) - 1) (pxk p) 0 - nth 0 (pxk p) 0 /\ 0 < T /\
    (forall comp x nd (n : Z), pw_calln p comp (x + IZR n * T) nd = pw_calln p comp x nd) /\
    (forall comp x (n : Z), pw_call p comp (x + IZR n * T) = pw_call p comp x) /\
    (forall comp x, inb comp (pshape p) ->
       nth 0 (pxk p) 0 <= x < nth (length (pxk p) - 1) (pxk p) 0 ->
       exists i, (i < length (pxk p))%nat /\ in_piece (pxk p) i x /\
         pw_call p comp x = Ok (peval (ccol (pc p) comp i) (x - left_knot (pxk p) i))).
Proof.
  intros p W EP. destruct (wf_per p W EP) as (H2 & HT & _). pose proof (per_len_pos p W EP) as Hpos.
  exists (per_len p). split; [exact HT|]. split; [reflexivity|]. split; [exact Hpos|].
  split; [|split].
  - intros comp x nd n. unfold pw_calln. rewrite pw_ok_wf by auto. cbn [bind]. unfold pw_vals.
    rewrite reduce_periodic by auto. reflexivity.
  - intros comp x n. rewrite !pw_call_wf by auto. rewrite !pw_val_base, reduce_periodic by auto. reflexivity.
  - intros comp x Hb Hx. exists (ssearch (pxk p) x).
    pose proof (ssearch_piece (pxk p) x (wf_inc p W)) as Hi. split; [|split; auto].
    + destruct Hi as (I1 & I2 & _). destruct (Nat.eq_dec (ssearch (pxk p) x) (length (pxk p))) as [E|]; [|lia].
      specialize (I2 (length (pxk p) - 1)%nat ltac:(lia)). lra.
    + rewrite pw_call_wf by auto. rewrite pw_val_base.
      rewrite (reduce_unique p x x 0%Z W EP) by (unfold per_len; lra). unfold base. do 3 f_equal.
      destruct (ssearch (pxk p) x); cbn [left_knot]; [apply W|apply pxk0_S].
Qed.
Theorem C49_needs_two_knots : forall (xk0 : list R) (c : carr R),
  length xk0 = ck c -> (length (tl xk0) < 2)%nat -> new Per xk0 c = Err TypeError.
Proof.
  intros xk0 c HL H. unfold new, rawinit. rewrite HL, Nat.eqb_refl.
  destruct (Nat.ltb_spec (length (tl xk0)) 2); [reflexivity|lia].
Qed.
Example C49_case : pw_call ex_per [] (1/2 + IZR (-7) * 2) = Ok (1/2).
Proof.
  destruct (C49_periodic ex_per ex_per_wf eq_refl) as (T & HT & _ & _ & _ & Hp & Hv).
  inversion HT; subst T. rewrite Hp.
  destruct (Hv [] (1/2) (Forall2_nil _) ltac:(cbn; lra)) as (i & _ & Hi & E). rewrite E.
  assert (in_piece (pxk ex_per) 1 (1/2)) as H1.
  { split; [cbn; lia|]. split; intros j Hj; cbn in *.
    - assert (j = 0)%nat by lia. subst; cbn. lra.
    - destruct j as [|[|[|j]]]; cbn; lra || lia. }
  rewrite (in_piece_unique _ _ _ _ Hi H1). unfold peval; cbn. f_equal; lra.
Qed.
Print Assumptions C49_periodic.

(* copies and pickles: a PwPoly evaluates like the original *)
Theorem C50_copy_partial : forall (p : pwpoly R), pcl p = Pw ->
  (forall comp x, pw_call (pcopy p) comp x = pw_call p comp x) /\
  (forall comp x nd, pw_calln (pcopy p) comp x nd = pw_calln p comp x nd) /\
  pxk (pcopy p) = pxk p /\ pshape (pcopy p) = pshape p.
Proof.
  intros p EP.
  assert (Hok : pw_ok (pcopy p) = pw_ok p) by (unfold pw_ok, pcopy, setstate, getstate; cbn; rewrite EP; destruct (pper p); reflexivity).
  assert (Hr : forall x, pw_reduce (pcopy p) x = pw_reduce p x) by (intros; rewrite !pw_reduce_Pw; auto).
  split; [|split; [|split; reflexivity]].
  - intros comp x. unfold pw_call. rewrite Hok. unfold pw_val. rewrite Hr. reflexivity.
  - intros comp x nd. unfold pw_calln. rewrite Hok. unfold pw_vals. rewrite Hr. reflexivity.
Qed.
Print Assumptions C50_copy_partial.
(* a PerPwPoly does not survive: period is not part of the saved state *)
Theorem C50_copy_refuted : forall (p : pwpoly R) comp x, pw_wf p -> pcl p = Per ->
  (exists v, pw_call p comp x = Ok v) /\ pw_call (pcopy p) comp x = Err AttributeError.
Proof.
  intros p comp x W EP. split; [eexists; apply pw_call_wf; auto|].
  pose proof (pw_ok_wf p W) as H. unfold pw_call, pw_ok, pcopy, setstate, getstate in *. cbn in *.
  rewrite EP in *. destruct (_ || _)%bool; [discriminate|reflexivity].
Qed.
Example C50_case : pw_wf ex_per /\ pcl ex_per = Per.
Proof. split; [apply ex_per_wf|reflexivity]. Qed.
Print Assumptions C50_copy_refuted.
