(* C120: operators with a PwPoly on one side and a PerPwPoly on the other (npplus/pwpoly.py:710-786). *)
From Coq Require Import List Arith ZArith Bool Lia Reals Lra QArith.
From Verif Require Import Num PyBase NdArray NdLemmas Poly SpecPoly PolyProofs PwPoly PwBase PwDeriv PwKnots PwArith PropsPw PropsArith.
Import ListNotations.
Local Open Scope R_scope.

(* q with its pieces but without its period *)
Definition unper (q : pwpoly R) : pwpoly R := PwP Pw (pxk0 q) (pc q) None.
Lemma unper_wf q : pw_wf q -> pw_wf (unper q).
Proof. intros W. split; try apply W. discriminate. Qed.

(* the columns of addknots for a periodic q fit together, wherever the new knots end *)
Lemma addknots_cons q zk : pw_wf q -> pcl q = Per -> incr zk -> (forall y, In y (pxk q) -> In y zk) ->
  (2 <= length zk)%nat /\
  cons_cols zk (CArr (cn (pc q)) (csh (pc q)) (length zk + 1)
    (fun comp i => let j := ak_index (pxk q) zk i in pshift (ccol (pc q) comp j) (nth i (firstn 1 zk ++ zk) 0 - nth j (pxk0 q) 0))).
Proof.
  intros W EP Hn Hsub. destruct (wf_per q W EP) as (P1 & _ & P3). set (o := length (pxk q)) in *. pose proof (wf_inc q W) as Ho. pose proof (ck_eq q W) as Hck.
  assert (L2 : (2 <= length zk)%nat).
  { destruct (In_nth zk (nth 0 (pxk q) 0) 0) as (a & Ha & Ea); [apply Hsub, nth_In; unfold o in *; lia|].
    destruct (In_nth zk (nth 1 (pxk q) 0) 0) as (b & Hb & Eb); [apply Hsub, nth_In; unfold o in *; lia|].
    destruct (le_lt_dec 2 (length zk)); auto. exfalso. assert (a = 0%nat) by lia. assert (b = 0%nat) by lia. subst.
    pose proof (incr_lt (pxk q) 0 1 Ho ltac:(unfold o in *; lia)). lra. }
  split; [exact L2|]. intros comp Hb. cbn [csh] in Hb. destruct (P3 comp Hb) as (Q0 & Q1). set (n := length zk) in *.
  assert (Exk0 : firstn 1 zk ++ zk = nth 0 zk 0 :: zk) by (destruct zk; [cbn in L2; lia|reflexivity]). rewrite Exk0.
  assert (First : nth 0 (pxk0 q) 0 = nth 1 (pxk0 q) 0) by (rewrite (wf_first q W); change 1%nat with (S 0); rewrite pxk0_S; reflexivity).
  cbn [ccol ck]. split.
  - cbv zeta. change (ak_index (pxk q) zk 0) with 0%nat. cbn [nth].
    assert (Hp : in_piece zk 1 (nth 1 zk 0)) by (apply in_piece_knot; auto).
    pose proof (ak_piece (pxk q) zk 1 _ Ho Hn ltac:(unfold n in *; lia) Hsub Hp) as (B0 & B1 & B2). set (j := ak_index (pxk q) zk 1) in *.
    destruct (Nat.eq_dec j 0) as [->|N0]; [reflexivity|]. destruct (Nat.eq_dec j 1) as [->|N1]; [rewrite Q0, First; reflexivity|].
    exfalso. pose proof (B1 1%nat ltac:(lia)) as H1. destruct (In_nth zk (nth 1 (pxk q) 0) 0) as (k & Hk & Ek); [apply Hsub, nth_In; unfold o in *; lia|].
    destruct (In_nth zk (nth 0 (pxk q) 0) 0) as (k0 & Hk0 & Ek0); [apply Hsub, nth_In; unfold o in *; lia|].
    pose proof (incr_lt (pxk q) 0 1 Ho ltac:(unfold o in *; lia)).
    destruct k as [|k]; [|pose proof (incr_le zk 1 (S k) Hn ltac:(lia)); lra]. pose proof (incr_le zk 0 k0 Hn ltac:(lia)). lra.
  - cbv zeta. replace (n + 1 - 1)%nat with n by lia. replace (n + 1 - 2)%nat with (n - 1)%nat by lia.
    assert (An : ak_index (pxk q) zk n = o).
    { unfold ak_index. fold n. rewrite Nat.eqb_refl. destruct (Nat.eqb_spec n 0); [lia|reflexivity]. }
    rewrite An.
    assert (Hp : in_piece zk (n - 1) (nth (n - 1) zk 0)) by (apply in_piece_knot; auto; unfold n in *; lia).
    pose proof (ak_piece (pxk q) zk (n - 1) _ Ho Hn ltac:(unfold n in *; lia) Hsub Hp) as (B0 & B1 & B2). set (j := ak_index (pxk q) zk (n - 1)) in *. fold o in B0, B2.
    assert (G1 : nth n (nth 0 zk 0 :: zk) 0 = nth (n - 1) zk 0) by (replace n with (S (n - 1)) at 1 by lia; reflexivity).
    assert (G2 : nth (n - 1) (nth 0 zk 0 :: zk) 0 = nth (n - 2) zk 0) by (replace (n - 1)%nat with (S (n - 2)) by lia; reflexivity).
    rewrite G1, G2. assert (NE : forall i, (i <= o)%nat -> ccol (pc q) comp i <> []) by (intros i Hi; apply wf_col_nonempty; auto; lia).
    destruct (Nat.eq_dec j o) as [->|No]; [rewrite pshift_pshift by (apply NE; lia); f_equal; numR; ring|].
    assert (j = o - 1)%nat as ->.
    { destruct (Nat.eq_dec j (o - 1)) as [|N]; auto. exfalso. pose proof (B2 (o - 2)%nat ltac:(lia)) as H1.
      destruct (In_nth zk (nth (o - 1) (pxk q) 0) 0) as (k & Hk & Ek); [apply Hsub, nth_In; unfold o in *; lia|].
      pose proof (incr_lt (pxk q) (o - 2) (o - 1) Ho ltac:(unfold o in *; lia)). pose proof (incr_le zk k (n - 1) Hn ltac:(unfold n in *; lia)). lra. }
    replace (ck (pc q) - 1)%nat with o in Q1 by lia. replace (ck (pc q) - 2)%nat with (o - 1)%nat in Q1 by lia. rewrite Q1.
    rewrite !pshift_pshift by (apply NE; lia). f_equal.
    assert (G3 : nth o (pxk0 q) 0 = nth (o - 1) (pxk q) 0) by (rewrite <- pxk0_S; f_equal; lia).
    assert (G4 : nth (o - 1) (pxk0 q) 0 = nth (o - 2) (pxk q) 0) by (rewrite <- pxk0_S; f_equal; lia).
    fold o. numR. rewrite G3, G4. ring.
Qed.

(* coefficient arrays that agree where they have entries *)
Definition agree (a b : carr R) : Prop := cn a = cn b /\ csh a = csh b /\ ck a = ck b /\
  forall comp i, inb comp (csh b) -> (i < ck b)%nat -> ccol a comp i = ccol b comp i.
Lemma agree_refl a : agree a a.
Proof. repeat split; auto. Qed.

(* _binary does not care for the period of its second operand *)
Lemma binary_unper p q skip : pw_wf p -> pw_wf q -> pcl p = Pw -> pcl q = Per -> separated tol6 (pxk p) (pxk q) ->
  exists this c c', binary p q skip = Ok (this, c) /\ binary p (unper q) skip = Ok (this, c') /\ agree c c'.
Proof.
  intros Wp Wq Cp Cq Hsep.
  assert (O : operands p (unper q)) by (split; [auto|apply unper_wf; auto|auto|rewrite Cp; discriminate|exact Hsep]).
  destruct (binary_ok p (unper q) skip O) as (this & q' & zk & E & LP & LQ & _). exists this.
  cut (exists c, binary p q skip = Ok (this, c) /\ agree c (pc q')); [intros (c & H1 & H2); eauto|].
  revert E. clear LP LQ zk. unfold binary. change (pc (unper q)) with (pc q). change (pxk0 (unper q)) with (pxk0 q). rewrite Cp.
  set (pad := negb skip && negb (cn (pc q) =? Nat.max (cn (pc p)) (cn (pc q)))%nat).
  set (pp := if negb skip && negb (cn (pc p) =? Nat.max (cn (pc p)) (cn (pc q)))%nat then _ else _).
  clearbody pad. assert (P1 : exists p1, pp = Ok p1 /\ pxk0 p1 = pxk0 p /\ ck (pc p1) = ck (pc p)).
  { unfold pp. destruct (negb skip && negb (cn (pc p) =? Nat.max (cn (pc p)) (cn (pc q)))%nat); [|exists p; auto]. unfold new, rawinit. cbn [cpad ck]. rewrite (wf_len p Wp), Nat.eqb_refl. eexists. repeat split. }
  destruct P1 as (p1 & -> & X1 & K1). cbn [bind].
  destruct pad; [intros E; exists (pc q'); split; [exact E|apply agree_refl]|]. cbn [bind]. change (pc (unper q)) with (pc q). change (pxk0 (unper q)) with (pxk0 q).
  set (pd := if (length (csh (pc p1)) <? length (csh (pc q)))%nat then _ else _).
  assert (P2 : exists p2, pd = Ok p2 /\ pxk0 p2 = pxk0 p).
  { unfold pd. destruct (_ <? _)%nat; [|exists p1; auto]. unfold new, rawinit. cbn [cdims ck]. rewrite X1, K1, (wf_len p Wp), Nat.eqb_refl. eexists. repeat split. }
  destruct P2 as (p2 & -> & X2). cbn [bind].
  destruct (length (csh (pc q)) <? length (csh (pc p1)))%nat; [intros E; exists (pc q'); split; [exact E|apply agree_refl]|]. cbn [bind]. change (pxk (unper q)) with (pxk q).
  (* the knots *)
  unfold allknots. cbn [allknots_loop]. replace (pxk p2) with (pxk p) by (unfold pxk; congruence).
  destruct (allknots1_exact tol6 true (pxk p) (pxk q) tol6_pos (wf_inc p Wp) (wf_inc q Wq) (wf_nk p Wp) (wf_nk q Wq) Hsep) as (sm & zk & -> & Hi & Hl & Hin & _).
  cbn [bind]. destruct sm; [intros [= -> <-]; exists (pc q); split; [reflexivity|apply agree_refl]|].
  destruct (addknots_raw p2 zk) as [p3|]; [|discriminate]. cbn [bind].
  destruct (addknots_cons q zk Wq Cq Hi) as (L2 & Cons); [intros y Hy; apply Hin; auto|].
  pose proof (cwf_n _ (wf_c q Wq)) as Hcn. unfold addknots_raw. change (pc (unper q)) with (pc q). change (pxk0 (unper q)) with (pxk0 q). change (pxk (unper q)) with (pxk q). change (pcl (unper q)) with Pw. rewrite Cq.
  destruct (Nat.eqb_spec (cn (pc q)) 0) as [|_]; [lia|]. numR. set (c := CArr _ _ _ _) in *. unfold new, rawinit.
  assert (Kc : ck c = (length zk + 1)%nat) by reflexivity. rewrite Kc.
  destruct (Nat.eqb_spec (length zk) (length zk + 1)) as [|_]; [lia|]. cbn [bind]. intros [= -> <-].
  assert (T0 : tl (firstn 1 zk ++ zk) = zk) by (destruct zk; [cbn in L2; lia|reflexivity]). rewrite T0.
  destruct (Nat.ltb_spec (length zk) 2); [lia|]. destruct (Nat.eqb_spec (cn c) 0) as [Z|_]; [cbn in Z; lia|]. cbn [bind]. eexists. split; [reflexivity|]. cbn [pc].
  split; [reflexivity|]. split; [reflexivity|]. split; [reflexivity|]. intros comp i Hb Hlt. destruct (Cons comp Hb) as (E0 & E1). cbn [per_fix ccol].
  destruct (Nat.eqb_spec i (ck c - 1)) as [->|Hne].
  - destruct (Nat.eqb_spec (ck c - 2) 0); [rewrite Kc in *; lia|]. rewrite E1. reflexivity.
  - destruct (Nat.eqb_spec i 0) as [->|]; auto.
Qed.

Lemma cmap_agree n f (a c c' : carr R) xk0 r' : agree c c' ->
  (let! x := cmap2 n f a c' in new Pw xk0 x)%res = Ok r' ->
  exists r, (let! x := cmap2 n f a c in new Pw xk0 x)%res = Ok r /\ pcl r = pcl r' /\ pxk0 r = pxk0 r' /\ agree (pc r) (pc r').
Proof.
  intros (A1 & A2 & A3 & A4). unfold cmap2. rewrite A2, A3. destruct (bshape (csh a) (csh c')) as [s|] eqn:Hs; [|discriminate].
  destruct (ck a =? ck c')%nat eqn:Hk; [|discriminate]. apply Nat.eqb_eq in Hk. cbn [bind]. unfold new, rawinit. cbn [ck]. intros [= <-].
  eexists. split; [reflexivity|]. cbn [pcl pxk0 pc]. split; [reflexivity|]. split; [reflexivity|]. repeat split. intros comp i Hb Hi. cbn [csh ck ccol] in *.
  rewrite A4; [reflexivity| |lia]. apply (bidx_inb_r _ _ _ _ Hs Hb).
Qed.
Lemma cmap_agree_swap n f (a c c' : carr R) xk0 r' : agree c c' ->
  (let! x := cmap2 n f c' a in new Pw xk0 x)%res = Ok r' ->
  exists r, (let! x := cmap2 n f c a in new Pw xk0 x)%res = Ok r /\ pcl r = pcl r' /\ pxk0 r = pxk0 r' /\ agree (pc r) (pc r').
Proof. rewrite !(cmap2_swap n f a). apply cmap_agree. Qed.
Lemma call_agree r r' comp x : pw_wf r' -> pcl r' = Pw -> pcl r = pcl r' -> pxk0 r = pxk0 r' -> agree (pc r) (pc r') -> inb comp (pshape r') ->
  pw_call r comp x = pw_call r' comp x.
Proof.
  intros W P C X (A1 & A2 & A3 & A4) Hb. unfold pw_call, pw_ok, pw_val, pw_reduce, pxk. rewrite C, P, X, A1, A3. fold (pxk r'). cbv zeta.
  rewrite A4; [reflexivity|exact Hb|apply piece_lt; auto].
Qed.
Lemma reduce_base q x : pw_wf q -> pcl q = Per -> nth 0 (pxk q) 0 <= x < nth (length (pxk q) - 1) (pxk q) 0 -> pw_reduce q x = x.
Proof. intros W E H. apply (reduce_unique q x x 0%Z W E); unfold per_len; lra. Qed.

(** ** C120 *)
(* p + q, p - q and p * q of a PwPoly p and a PerPwPoly q are PwPolys with the right values on the base interval of q.
   Missing: other x, and a PwPoly as second operand of a PerPwPoly (see the refutations below and PropsMixed2.v) *)
Theorem C120_mixed_partial : forall (p q : pwpoly R) (s : list nat),
  pw_wf p -> pw_wf q -> pcl p = Pw -> pcl q = Per -> well_separated (1 / 1000000) (pxk p ++ pxk q) -> bshape (pshape p) (pshape q) = Some s ->
  exists a d m, padd p q = Ok a /\ psub p q = Ok d /\ pmul p q = Ok m /\
    (pcl a = Pw /\ pcl d = Pw /\ pcl m = Pw) /\ (pshape a = s /\ pshape d = s /\ pshape m = s) /\
    (forall x, In x (pxk a) <-> In x (pxk p) \/ In x (pxk q)) /\
    forall comp x, inb comp s -> nth 0 (pxk q) 0 <= x < nth (length (pxk q) - 1) (pxk q) 0 ->
      exists u v, pw_call p (bidx (pshape p) comp) x = Ok u /\ pw_call q (bidx (pshape q) comp) x = Ok v /\
        pw_call a comp x = Ok (u + v) /\ pw_call d comp x = Ok (u - v) /\ pw_call m comp x = Ok (u * v).
Proof.
  intros p q s Wp Wq Cp Cq Hsep Hs.
  assert (Hc : compatible p (unper q)) by (split; [auto|split; [apply unper_wf; auto|split; [auto|split; [rewrite Cp; discriminate|exact Hsep]]]]).
  pose proof (op_sep _ _ (compatible_operands _ _ Hc)) as Sep. change (pxk (unper q)) with (pxk q) in Sep.
  destruct (binary_unper p q false Wp Wq Cp Cq Sep) as (t1 & c1 & c1' & B1 & B1' & A1). destruct (binary_unper p q true Wp Wq Cp Cq Sep) as (t2 & c2 & c2' & B2 & B2' & A2).
  destruct (addsub_ok p (unper q) Rplus 1 s (compatible_operands _ _ Hc)) as (a' & Ea & Pa & _); [intros; ring|exact Hs|].
  destruct (addsub_ok p (unper q) Rminus (-1) s (compatible_operands _ _ Hc)) as (d' & Ed & Pd & _); [intros; ring|exact Hs|].
  destruct (pmul_ok p (unper q) s (compatible_operands _ _ Hc) Hs) as (m' & Em & Pm & _).
  rewrite B1', Cp in Ea, Ed. cbn [bind] in Ea, Ed. unfold pmul in Em. rewrite B2', Cp in Em. cbn [bind] in Em.
  destruct (cmap_agree _ _ _ _ _ _ _ A1 Ea) as (a & Ea1 & Ca & Xa & Ga). destruct (cmap_agree _ _ _ _ _ _ _ A1 Ed) as (d & Ed1 & Cd & Xd & Gd).
  assert (exists m, pmul p q = Ok m /\ pcl m = pcl m' /\ pxk0 m = pxk0 m' /\ agree (pc m) (pc m')) as (m & Em1 & Cm & Xm & Gm).
  { unfold pmul. rewrite B2, Cp. cbn [bind]. rewrite (proj1 A2). destruct (cn (pc t2) <? cn c2')%nat; rewrite (proj1 A2).
    - apply (cmap_agree_swap _ _ _ _ _ _ _ A2 Em). - apply (cmap_agree _ _ _ _ _ _ _ A2 Em). }
  exists a, d, m. split; [unfold padd; rewrite B1, Cp; exact Ea1|]. split; [unfold psub; rewrite B1, Cp; exact Ed1|]. split; [exact Em1|].
  pose proof (pt_cl _ _ _ _ _ Pa) as K1. pose proof (pt_cl _ _ _ _ _ Pd) as K2. pose proof (pt_cl _ _ _ _ _ Pm) as K3.
  pose proof (pt_sh _ _ _ _ _ Pa) as S1. pose proof (pt_sh _ _ _ _ _ Pd) as S2. pose proof (pt_sh _ _ _ _ _ Pm) as S3.
  split; [repeat split; congruence|]. split; [unfold pshape in *; rewrite (proj1 (proj2 Ga)), (proj1 (proj2 Gd)), (proj1 (proj2 Gm)); auto|].
  split; [intros x; unfold pxk at 1; rewrite Xa; apply (pt_knots _ _ _ _ _ Pa)|]. intros comp x Hb Hx.
  rewrite (call_agree a a'), (call_agree d d'), (call_agree m m') by (rewrite ?S1, ?S2, ?S3; try congruence; auto; try (eapply pt_wf; eauto)).
  rewrite !pw_call_wf by (auto; eapply pt_wf; eauto). do 2 eexists. split; [reflexivity|]. split; [reflexivity|].
  rewrite (pt_val _ _ _ _ _ Pa), (pt_val _ _ _ _ _ Pd), (pt_val _ _ _ _ _ Pm) by auto.
  rewrite (pw_val_base q), (reduce_base q x Wq Cq Hx), (pw_val_base (unper q)), pw_reduce_Pw by reflexivity. auto.
Qed.
(* x on [0, 2) with its knots 0, 1 and 2 and the periodic tent *)
Example C120_case : exists a, padd (unper ex_per) ex_per = Ok a /\ pw_call a [] (3 / 2) = Ok 1.
Proof.
  destruct (C120_mixed_partial (unper ex_per) ex_per [] (unper_wf _ ex_per_wf) ex_per_wf eq_refl eq_refl) as (a & d & m & Ea & _ & _ & _ & _ & _ & H).
  - apply (sep_list _ _ 2); [| |lra].
    + intros x y Hx Hy N. cbn in Hx, Hy. assert (x = 0 \/ x = 1 \/ x = 2) as Hx' by intuition. assert (y = 0 \/ y = 1 \/ y = 2) as Hy' by intuition.
      unfold Rabs. destruct Hx' as [->|[->| ->]], Hy' as [->|[->| ->]]; try (exfalso; apply N; reflexivity); repeat destruct (Rcase_abs _); split; lra.
    + intros u v Hu Hv. cbn in Hu, Hv. assert (u = 0 \/ u = 1 \/ u = 2) by intuition. assert (v = 0 \/ v = 1 \/ v = 2) by intuition. intuition; lra.
  - reflexivity.
  - exists a. split; [exact Ea|]. destruct (H [] (3 / 2) (Forall2_nil _)) as (u & v & Hu & Hv & -> & _); [cbn; lra|].
    rewrite pw_call_wf in Hu, Hv by (try apply unper_wf; apply ex_per_wf). rewrite pw_val_base, pw_reduce_Pw in Hu by reflexivity.
    rewrite pw_val_base, (reduce_base ex_per) in Hv by (try apply ex_per_wf; try reflexivity; cbn; lra).
    assert (B : base ex_per [] (3 / 2) = 1 / 2).
    { rewrite (base_piece ex_per [] 2); [unfold peval; cbn; lra|apply ex_per_wf|]. split; [cbn; lia|].
      split; intros j Hj; cbn in Hj; [assert (j = 0 \/ j = 1)%nat as [-> | ->] by lia|assert (j = 2)%nat as -> by lia]; cbn; lra. }
    change (Ok (base ex_per [] (3 / 2)) = Ok u) in Hu. change (Ok (base ex_per [] (3 / 2)) = Ok v) in Hv. rewrite B in Hu, Hv.
    injection Hu as <-. injection Hv as <-. f_equal. lra.
Qed.
Print Assumptions C120_mixed_partial.

(* outside the base interval the sum of a PwPoly and a PerPwPoly does not follow the periodic one; and the sum of a
   PerPwPoly of degree 2 and a PwPoly of degree 1 is wrong inside the base interval too, where the same PerPwPoly written
   with degree 1 gives the right value: _binary pads the PwPoly with PerPwPoly.new, which replaces its outer pieces.
   The model is run over the rationals. *)
Definition zero1 (cl : cls) (xs : list Q) (n : nat) (T : option Q) : @pwpoly Q := PwP cl xs (CArr n [] (length xs) (fun _ _ => repeat 0%Q n)) T.
Definition saw : @pwpoly Q := PwP Per [0; 0; 1]%Q (CArr 2 [] 3 (fun _ i => nth i [[0; 1]; [0; 1]; [1; 1]]%Q [])) (Some 1%Q).
Definition step45 : @pwpoly Q := PwP Pw [4; 4; 5]%Q (CArr 2 [] 3 (fun _ i => nth i [[0; 0]; [0; 1]; [1; 0]]%Q [])) None.
Definition val (r : res (@pwpoly Q)) (x : Q) : option Q := match r with Ok p => match pw_call p [] x with Ok v => Some (Qred v) | Err _ => None end | Err _ => None end.
Theorem C120_mixed_refuted :
  (* 0 + saw at 5/2, where saw is 1/2 *)
  (val (Ok saw) (5 # 2) = Some (1 # 2)%Q /\ val (Ok (zero1 Pw [0; 0; 1]%Q 2 None)) (5 # 2) = Some 0%Q /\
   val (padd (zero1 Pw [0; 0; 1]%Q 2 None) saw) (5 # 2) = Some (5 # 2)%Q) /\
  (* 0 + step at 7, where step is 1: right for a zero of degree 1, wrong for one of degree 2 *)
  (val (Ok step45) 7 = Some 1%Q /\
   val (padd (zero1 Per [0; 0; 10]%Q 2 (Some 10%Q)) step45) 7 = Some 1%Q /\
   val (padd (zero1 Per [0; 0; 10]%Q 3 (Some 10%Q)) step45) 7 = Some 3%Q).
Proof. vm_compute. repeat split. Qed.
Print Assumptions C120_mixed_refuted.
