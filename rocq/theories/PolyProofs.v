(* Facts about the polynomial kernels over the reals. *)
From Coq Require Import Reals List Arith Lia Lra ZArith.
From Verif Require Import Num PyBase Poly SpecPoly.
Import ListNotations.
Local Open Scope R_scope.

Lemma psum_S k c x : psum (S k) c x = x * psum k c x.
Proof.
  revert k; induction c as [|a c IH]; intros k; cbn; [ring|].
  rewrite (IH (S k)). cbn. ring.
Qed.
Lemma peval_nil x : peval [] x = 0.
Proof. reflexivity. Qed.
Lemma peval_cons a c x : peval (a :: c) x = a + x * peval c x.
Proof. unfold peval. cbn. rewrite psum_S. ring. Qed.
Lemma peval_app c d x : peval (c ++ d) x = peval c x + x ^ length c * peval d x.
Proof.
  induction c as [|a c IH]; cbn [app length].
  - rewrite peval_nil. cbn. ring.
  - rewrite !peval_cons, IH. cbn. ring.
Qed.
Lemma peval_zeros n x : peval (repeat 0 n) x = 0.
Proof. induction n; cbn [repeat]; [apply peval_nil|]. rewrite peval_cons, IHn. ring. Qed.
Lemma peval_0 c : peval c 0 = nth 0 c 0.
Proof. destruct c; [reflexivity|]. rewrite peval_cons. cbn. ring. Qed.

(* k-th Taylor coefficient at x of the polynomial c *)
Fixpoint tay (k : nat) (c : list R) (x : R) : R :=
  match c with
  | [] => 0
  | a :: r => match k with
              | O => a + x * tay 0 r x
              | S k' => x * tay k r x + tay k' r x
              end
  end.
Lemma tay_0 c x : tay 0 c x = peval c x.
Proof. induction c as [|a c IH]; [reflexivity|]. rewrite peval_cons, <- IH. reflexivity. Qed.
Lemma tay_big k c x : (length c <= k)%nat -> tay k c x = 0.
Proof.
  revert k; induction c as [|a c IH]; intros k H; cbn in *; [reflexivity|].
  destruct k; [lia|]. rewrite !IH by lia. ring.
Qed.
Lemma tay_at_0 k c : tay k c 0 = nth k c 0.
Proof.
  revert k; induction c as [|a c IH]; intros k; cbn; [destruct k; reflexivity|].
  destruct k; [ring|]. rewrite (IH k). ring.
Qed.
Lemma tay_app_zeros k c n x : tay k (c ++ repeat 0 n) x = tay k c x.
Proof.
  revert k; induction c as [|a c IH]; intros k; cbn.
  - revert k; induction n as [|n IHn]; intros k; cbn; [reflexivity|].
    destruct k; rewrite ?IHn; ring.
  - destruct k; rewrite ?IH; reflexivity.
Qed.

Definition tlist (nd : nat) (c : list R) (x : R) : list R :=
  map (fun k => tay k c x) (seq 0 (S nd)).
Lemma tlist_length nd c x : length (tlist nd c x) = S nd.
Proof. unfold tlist. rewrite map_length, seq_length. reflexivity. Qed.
Lemma tlist_nth nd c x k : (k <= nd)%nat -> nth k (tlist nd c x) 0 = tay k c x.
Proof.
  intros H. unfold tlist.
  rewrite nth_indep with (d' := tay 0 c x) by (rewrite map_length, seq_length; lia).
  rewrite (map_nth (fun k => tay k c x)). rewrite seq_nth by lia. reflexivity.
Qed.
Lemma list_eq_nth (l m : list R) :
  length l = length m -> (forall i, (i < length l)%nat -> nth i l 0 = nth i m 0) -> l = m.
Proof. intros H1 H2. apply (nth_ext l m 0 0); auto. Qed.

Lemma ddx_step_tlist nd c x a : ddx_step x (tlist nd c x) a = tlist nd (a :: c) x.
Proof.
  unfold ddx_step; numR. apply list_eq_nth.
  - rewrite zipw_length. cbn [length]. rewrite !tlist_length. lia.
  - intros i Hi. rewrite zipw_length in Hi. cbn [length] in Hi. rewrite tlist_length in Hi.
    rewrite (nth_zipw _ _ _ _ 0 0) by (cbn [length]; rewrite ?tlist_length; lia).
    rewrite tlist_nth, (tlist_nth nd (a :: c)) by lia.
    destruct i; cbn [nth tay].
    + ring.
    + rewrite tlist_nth by lia. ring.
Qed.
Lemma fold_ddx_step nd r c x :
  fold_left (ddx_step x) r (tlist nd c x) = tlist nd (rev r ++ c) x.
Proof.
  revert c; induction r as [|a r IH]; intros c; [reflexivity|]. cbn [fold_left rev].
  rewrite ddx_step_tlist, IH. rewrite <- app_assoc. reflexivity.
Qed.

Lemma rev_cons_inv {A} (c : list A) a r : rev c = a :: r -> c = rev r ++ [a].
Proof. intros H. rewrite <- (rev_involutive c), H. reflexivity. Qed.

(* polyddx with norm=False is the list of Taylor coefficients *)
Lemma taylor_tlist c x nd :
  (2 <= length c)%nat \/ (1 <= length c)%nat /\ nd = 0%nat ->
  taylor c x nd = tlist nd c x.
Proof.
  intros H. unfold taylor. destruct (rev c) as [|a [|b r]] eqn:E.
  - apply (f_equal (@length R)) in E. rewrite rev_length in E. cbn in E. lia.
  - apply rev_cons_inv in E. cbn in E. subst c. cbn in H.
    destruct H as [H|[_ ->]]; [lia|]. cbn. numR. f_equal. ring.
  - apply rev_cons_inv in E. subst c. cbn [polysetup rev].
    rewrite <- app_assoc. cbn [app]. rewrite <- fold_ddx_step. f_equal.
    replace (rev r ++ [b; a]) with ((rev r ++ [b]) ++ [a]) by (rewrite <- app_assoc; reflexivity).
    rewrite last_last. numR. apply list_eq_nth.
    + rewrite tlist_length. destruct nd; cbn; [reflexivity|]. rewrite repeat_length. reflexivity.
    + intros i Hi.
      assert (i <= nd)%nat by (destruct nd; cbn in Hi; rewrite ?repeat_length in Hi; lia).
      rewrite tlist_nth by lia.
      destruct nd; [assert (i = 0)%nat by lia; subst; cbn; ring|].
      destruct i as [|[|i]]; cbn [nth tay]; [ring|ring|].
      rewrite nth_repeat. destruct i; cbn; ring.
Qed.

Lemma horner_fold r s x : fold_left (fun p cn => p * x + cn) r (peval s x) = peval (rev r ++ s) x.
Proof.
  revert s; induction r as [|a r IH]; intros s; [reflexivity|]. cbn [fold_left rev].
  replace (peval s x * x + a) with (peval (a :: s) x) by (rewrite peval_cons; ring).
  rewrite IH, <- app_assoc. reflexivity.
Qed.
Lemma horner_peval c x : horner c x = peval c x.
Proof.
  unfold horner. destruct (rev c) as [|a [|b r]] eqn:E.
  - rewrite <- (rev_involutive c), E. reflexivity.
  - apply rev_cons_inv in E. subst c. cbn. numR. unfold peval; cbn. ring.
  - apply rev_cons_inv in E. subst c. cbn [polysetup rev]. numR.
    rewrite <- app_assoc. cbn [app]. rewrite <- horner_fold. f_equal.
    unfold peval; cbn. ring.
Qed.

(* one-coefficient polynomials: what the code computes for nd >= 1 *)
Lemma taylor_single a x nd :
  taylor [a] x nd = a :: match nd with O => [] | S m => a :: repeat 0 m end.
Proof. unfold taylor. cbn. numR. f_equal; ring. Qed.

(* translation *)
Lemma tlist_shift N c x y : (length c <= S N)%nat -> peval (tlist N c x) y = peval c (x + y).
Proof.
  unfold tlist. revert N; induction c as [|a c IH]; intros N H.
  - rewrite peval_nil. assert (G : forall l, peval (map (fun k => tay k [] x) l) y = 0).
    { induction l as [|i l IHl]; cbn [map]; [reflexivity|].
      rewrite peval_cons, IHl. destruct i; cbn; ring. }
    apply G.
  - cbn [length] in H. destruct N as [|N].
    + destruct c; [|cbn in H; lia]. cbn. unfold peval; cbn. ring.
    + change (seq 0 (S (S N))) with (0%nat :: seq 1 (S N)). cbn [map]. rewrite peval_cons.
      assert (E : forall M s, peval (map (fun k => tay k (a :: c) x) (seq (S s) M)) y =
                    x * peval (map (fun k => tay k c x) (seq (S s) M)) y +
                    peval (map (fun k => tay k c x) (seq s M)) y).
      { induction M as [|M IHM]; intros s; cbn [seq map].
        - rewrite peval_nil. ring.
        - rewrite !peval_cons, IHM. cbn [tay]. ring. }
      rewrite E. rewrite peval_cons.
      pose proof (IH (S N) ltac:(lia)) as I1. pose proof (IH N ltac:(lia)) as I2.
      change (seq 0 (S (S N))) with (0%nat :: seq 1 (S N)) in I1. cbn [map] in I1.
      rewrite peval_cons in I1. rewrite I2, <- I1. rewrite !tay_0, peval_cons. ring.
Qed.

(* derivative of a Taylor coefficient *)
Lemma tay_deriv k c x :
  derivable_pt_lim (fun t => tay k c t) x (INR (S k) * tay (S k) c x).
Proof.
  revert k; induction c as [|a c IH]; intros k.
  - cbn [tay]. rewrite Rmult_0_r. apply derivable_pt_lim_const.
  - destruct k as [|k].
    + cbn [tay].
      replace (INR 1 * (x * tay 1 c x + tay 0 c x)) with
        (0 + (1 * tay 0 c x + x * (INR 1 * tay 1 c x))) by (cbn; ring).
      apply (derivable_pt_lim_plus (fun _ => a) (fun t => t * tay 0 c t)).
      * apply derivable_pt_lim_const.
      * apply (derivable_pt_lim_mult (fun t => t) (fun t => tay 0 c t)).
        -- apply derivable_pt_lim_id.
        -- apply IH.
    + cbn [tay].
      replace (INR (S (S k)) * (x * tay (S (S k)) c x + tay (S k) c x)) with
        ((1 * tay (S k) c x + x * (INR (S (S k)) * tay (S (S k)) c x)) +
         INR (S k) * tay (S k) c x) by (rewrite (S_INR (S k)); ring).
      apply (derivable_pt_lim_plus (fun t => t * tay (S k) c t) (fun t => tay k c t)).
      * apply (derivable_pt_lim_mult (fun t => t) (fun t => tay (S k) c t)).
        -- apply derivable_pt_lim_id.
        -- apply IH.
      * apply IH.
Qed.
Lemma dpl_ext f g x l : (forall t, f t = g t) -> derivable_pt_lim f x l -> derivable_pt_lim g x l.
Proof.
  intros E H eps He. destruct (H eps He) as [d Hd]. exists d. intros h H1 H2.
  rewrite <- !E. apply Hd; assumption.
Qed.
Lemma peval_deriv c x : derivable_pt_lim (peval c) x (tay 1 c x).
Proof.
  apply (dpl_ext (fun t => tay 0 c t)); [intros; apply tay_0|].
  pose proof (tay_deriv 0 c x) as H. cbn [INR] in H. rewrite Rmult_1_l in H. exact H.
Qed.

Lemma IZR_zfact k : IZR (zfact k) = INR (fact k).
Proof.
  induction k as [|k IH]; [reflexivity|].
  cbn [zfact]. rewrite mult_IZR, IH. change (fact (S k)) with (S k * fact k)%nat.
  rewrite mult_INR, <- INR_IZR_INZ. reflexivity.
Qed.
Lemma nderiv_tay k c : nderiv k (peval c) (fun x => INR (fact k) * tay k c x).
Proof.
  induction k as [|k IH].
  - cbn. intros x. rewrite tay_0. ring.
  - cbn [nderiv]. exists (fun x => INR (fact k) * tay k c x). split; [exact IH|].
    intros x. replace (INR (fact (S k)) * tay (S k) c x) with
      (INR (fact k) * (INR (S k) * tay (S k) c x)).
    + apply (derivable_pt_lim_scal (fun t => tay k c t)). apply tay_deriv.
    + change (fact (S k)) with (S k * fact k)%nat. rewrite mult_INR. ring.
Qed.
Lemma nderiv_ext k f g g' : (forall x, g x = g' x) -> nderiv k f g -> nderiv k f g'.
Proof.
  intros E. destruct k; cbn; intros H.
  - intros x; rewrite <- E; auto.
  - destruct H as (h & H1 & H2). exists h. split; auto. intros x; rewrite <- E; auto.
Qed.
Lemma nderiv_unique k f g h : nderiv k f g -> nderiv k f h -> forall x, g x = h x.
Proof.
  revert g h; induction k as [|k IH]; cbn; intros g h Hg Hh x.
  - rewrite Hg, Hh. reflexivity.
  - destruct Hg as (g1 & G1 & G2), Hh as (h1 & H1 & H2).
    pose proof (IH _ _ G1 H1) as E.
    apply (uniqueness_limite g1 x). apply G2. apply (dpl_ext h1); auto.
Qed.

(* a polynomial function determines its coefficients *)
Lemma peval_continuity c x : continuity_pt (peval c) x.
Proof. apply derivable_continuous_pt. exists (tay 1 c x). apply peval_deriv. Qed.
Lemma peval_zero_coeffs c : (forall x, peval c x = 0) -> Forall (fun a => a = 0) c.
Proof.
  induction c as [|a c IH]; intros H; [constructor|].
  assert (a = 0) by (pose proof (H 0) as H0; rewrite peval_cons in H0; lra). subst a.
  assert (H1 : forall x, x <> 0 -> peval c x = 0).
  { intros x Hx. pose proof (H x) as H0. rewrite peval_cons in H0.
    apply (Rmult_eq_reg_l x); [lra|assumption]. }
  constructor; [reflexivity|]. apply IH. intros x.
  destruct (Req_dec x 0) as [->|Hx]; [|auto].
  destruct (Req_dec (peval c 0) 0) as [|Hn]; [assumption|exfalso].
  destruct (peval_continuity c 0 (Rabs (peval c 0))) as (d & Hd & Hc).
  { apply Rabs_pos_lt; assumption. }
  specialize (Hc (d / 2)).
  assert (Hlt : R_dist (peval c (d / 2)) (peval c 0) < Rabs (peval c 0)).
  { apply Hc. split.
    - split; [exact I|]. lra.
    - cbn. unfold R_dist. rewrite Rabs_right; lra. }
  rewrite H1 in Hlt by lra. unfold R_dist in Hlt.
  rewrite Rminus_0_l, Rabs_Ropp in Hlt. lra.
Qed.
Lemma peval_inj c d : length c = length d -> (forall x, peval c x = peval d x) -> c = d.
Proof.
  revert d; induction c as [|a c IH]; intros [|b d] HL H; cbn in HL; try lia; [reflexivity|].
  assert (G : forall l m, length l = length m ->
     exists r, length r = length l /\ (forall x, peval r x = peval l x - peval m x) /\
       (Forall (fun a => a = 0) r -> l = m)).
  { clear. induction l as [|u l IHl]; intros [|v m] H; cbn in H; try lia.
    - exists []. repeat split; auto. intros; unfold peval; cbn; ring.
    - destruct (IHl m ltac:(lia)) as (r & R1 & R2 & R3). exists ((u - v) :: r).
      split; [cbn; lia|]. split.
      + intros x. rewrite !peval_cons, R2. ring.
      + intros HF. inversion HF; subst. f_equal; [lra|auto]. }
  destruct (G (a :: c) (b :: d)) as (r & _ & R2 & R3); [cbn; lia|].
  apply R3. apply peval_zero_coeffs. intros x. rewrite R2, H. ring.
Qed.

Lemma tlist_tlist N M c x z :
  (length c <= S N)%nat -> tlist M (tlist N c x) z = tlist M c (x + z).
Proof.
  intros H.
  assert (E : tlist N (tlist N c x) z = tlist N c (x + z)).
  { apply peval_inj; [rewrite !tlist_length; reflexivity|]. intros y.
    rewrite tlist_shift by (rewrite tlist_length; lia).
    rewrite !tlist_shift by assumption. f_equal. ring. }
  apply list_eq_nth; [rewrite !tlist_length; reflexivity|].
  intros i Hi. rewrite tlist_length in Hi. rewrite !tlist_nth by lia.
  destruct (le_lt_dec i N) as [Hl|Hl].
  - rewrite <- (tlist_nth N (tlist N c x)), E, tlist_nth by lia. reflexivity.
  - rewrite !tay_big by (rewrite ?tlist_length; lia). reflexivity.
Qed.
Lemma tay_tlist N k c x z : (length c <= S N)%nat -> tay k (tlist N c x) z = tay k c (x + z).
Proof.
  intros H. pose proof (tlist_tlist N k c x z H) as E.
  apply (f_equal (fun l => nth k l 0)) in E. rewrite !tlist_nth in E by lia. exact E.
Qed.

Lemma pshift_tlist c x : c <> [] -> pshift c x = tlist (length c - 1) c x.
Proof.
  intros H. unfold pshift. apply taylor_tlist. destruct c as [|a [|b c]]; cbn; [congruence|lia|lia].
Qed.
Lemma pshift_length c x : c <> [] -> length (pshift c x) = length c.
Proof. intros H. rewrite pshift_tlist, tlist_length by assumption. destruct c; cbn; [congruence|lia]. Qed.
Lemma pshift_peval c x y : c <> [] -> peval (pshift c x) y = peval c (x + y).
Proof. intros H. rewrite pshift_tlist by assumption. apply tlist_shift. destruct c; cbn; [congruence|lia]. Qed.
Lemma pshift_tay k c x y : c <> [] -> tay k (pshift c x) y = tay k c (x + y).
Proof. intros H. rewrite pshift_tlist by assumption. apply tay_tlist. destruct c; cbn; [congruence|lia]. Qed.
Lemma pshift_pshift c x y : c <> [] -> pshift (pshift c x) y = pshift c (x + y).
Proof.
  intros H. assert (pshift c x <> []).
  { intros E. apply (f_equal (@length R)) in E. rewrite pshift_length in E by assumption.
    destruct c; cbn in E; congruence. }
  rewrite pshift_tlist by assumption. rewrite pshift_length by assumption.
  rewrite !pshift_tlist by assumption. apply tlist_tlist. destruct c; cbn; [congruence|lia].
Qed.
Lemma pshift_0 c : c <> [] -> pshift c 0 = c.
Proof.
  intros H. apply peval_inj; [apply pshift_length; assumption|].
  intros x. rewrite pshift_peval by assumption. f_equal. ring.
Qed.

Lemma wrap_fact k : (k <= 20)%nat -> wrap64 (zfact k) = zfact k.
Proof. intros H. do 21 (destruct k as [|k]; [vm_compute; reflexivity|]). lia. Qed.
Lemma cfact_R k : (k <= 20)%nat -> @cfact R _ k = INR (fact k).
Proof. intros H. unfold cfact. rewrite wrap_fact by auto. numR. apply IZR_zfact. Qed.
(* entries above the degree are 0 whatever the factor *)
Lemma denorm_nth (p : list R) k : (k <= 20)%nat \/ nth k p 0 = 0 ->
  (k < length p)%nat -> nth k (denorm p) 0 = nth k p 0 * INR (fact k).
Proof.
  intros B H. destruct p as [|a r]; [cbn in H; lia|]. cbn [denorm].
  destruct k; cbn [nth]; [cbn; ring|]. cbn in H.
  rewrite (nth_zipw _ _ _ _ 0 0%nat) by (rewrite ?seq_length; lia).
  rewrite seq_nth by lia. numR. destruct B as [B|B]; [rewrite cfact_R by (cbn; lia); reflexivity|].
  cbn [nth] in B. rewrite B, !Rmult_0_l. reflexivity.
Qed.
Lemma wrapped_fact k : k = 21%nat -> IZR (wrap64 (zfact k)) = IZR (zfact k) * (-4249290049419214848 / 51090942171709440000).
Proof.
  intros ->. replace (wrap64 (zfact 21)) with (-4249290049419214848)%Z by (vm_compute; reflexivity).
  replace (zfact 21) with 51090942171709440000%Z by (vm_compute; reflexivity). field.
Qed.
Lemma denorm_wrapped k (p : list R) : k = 21%nat -> (k < length p)%nat ->
  nth k (denorm p) 0 = INR (fact k) * nth k p 0 * (-4249290049419214848 / 51090942171709440000).
Proof.
  intros E H. destruct p as [|b l]; [cbn in H; lia|]. cbn [denorm]. destruct k as [|m]; [discriminate|]. cbn [nth length] in *.
  rewrite (nth_zipw _ _ _ _ 0 0%nat) by (rewrite ?seq_length; lia). rewrite seq_nth by lia. replace (1 + m)%nat with (S m) by lia.
  rewrite <- IZR_zfact. unfold cfact. numR. rewrite wrapped_fact by auto. ring.
Qed.
Lemma tay_top (l : list R) a x : tay (length l) (l ++ [a]) x = a.
Proof.
  induction l as [|b l IH]; [cbn; ring|]. cbn [length app tay]. rewrite IH, tay_big; [ring|]. rewrite app_length. cbn. lia.
Qed.
Lemma denorm_length {K} {NK : Num K} (p : list K) : length (denorm p) = length p.
Proof. destruct p; cbn; [reflexivity|]. rewrite zipw_length, seq_length. lia. Qed.
