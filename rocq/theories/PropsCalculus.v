(* C118: the rules of calculus for piecewise polynomials: deriv, integ and the operators
   together (npplus/pwpoly.py:343-410, 710-786). *)
From Coq Require Import Reals List Arith Lia Lra ZArith Bool.
From Coquelicot Require Import Coquelicot.
From Verif Require Import Num PyBase NdArray NdLemmas Poly SpecPoly PolyProofs PwPoly PwBase PwDeriv PwInteg PwIntegral PwKnots PwArith PropsPw PropsInteg PropsArith.
Import ListNotations.
Local Open Scope R_scope.

(** ** specification *)
(* every component is a continuous function *)
Definition continuous_pw (p : pwpoly R) : Prop := forall comp x, inb comp (pshape p) -> continuity_pt (pw_val p comp) x.

(** ** a piecewise polynomial to the left of x *)
Lemma piece_left xs i x : incr xs -> in_piece xs i x -> exists e, 0 < e /\ forall t, x - e < t <= x -> in_piece xs i t.
Proof.
  intros Hi (A & B & C). destruct i as [|i].
  - exists 1. split; [lra|]. intros t Ht. split; [lia|]. split; intros j Hj; [lia|]. pose proof (C j Hj). lra.
  - exists (x - nth i xs 0). pose proof (B i ltac:(lia)). split; [lra|]. intros t Ht. split; [lia|]. split; intros j Hj.
    + assert (nth j xs 0 <= nth i xs 0) by (apply incr_le; auto; lia). lra.
    + pose proof (C j Hj). lra.
Qed.
Definition piece (p : pwpoly R) (comp : list nat) (i : nat) (t : R) : R := peval (ccol (pc p) comp i) (t - nth i (pxk0 p) 0).
Definition dpiece (p : pwpoly R) (comp : list nat) (i : nat) (t : R) : R := tay 1 (ccol (pc p) comp i) (t - nth i (pxk0 p) 0).
Lemma piece_d p comp i x : derivable_pt_lim (piece p comp i) x (dpiece p comp i x).
Proof.
  unfold piece, dpiece. set (c := ccol (pc p) comp i). set (y := nth i (pxk0 p) 0).
  replace (tay 1 c (x - y)) with (tay 1 c (x - y) * (1 - 0)) by ring.
  apply (derivable_pt_lim_comp (fun x => x - y) (peval c)); [|apply peval_deriv].
  apply derivable_pt_lim_minus; [apply derivable_pt_lim_id|apply derivable_pt_lim_const].
Qed.
Lemma val_piece p comp i x : pw_wf p -> pcl p = Pw -> in_piece (pxk p) i x -> pw_val p comp x = piece p comp i x.
Proof. intros W P H. rewrite pw_val_base, pw_reduce_Pw by auto. apply base_piece; [apply W|auto]. Qed.
Lemma dval_piece p d comp i x : pw_wf p -> pcl p = Pw -> deriv p 1 = Ok d -> inb comp (pshape p) -> in_piece (pxk p) i x ->
  pw_val d comp x = dpiece p comp i x.
Proof.
  intros W P E Hb H. rewrite (deriv_val p 1 d comp x W E Hb). cbv zeta. rewrite pw_reduce_Pw by auto.
  rewrite (ssearch_unique _ i) by (auto; apply W). unfold dpiece. cbn. ring.
Qed.
Lemma germ p d comp x : pw_wf p -> pcl p = Pw -> deriv p 1 = Ok d -> inb comp (pshape p) ->
  exists e F, 0 < e /\ (forall t, x - e < t <= x -> pw_val p comp t = F t) /\ derivable_pt_lim F x (pw_val d comp x).
Proof.
  intros W P E Hb. pose proof (ssearch_piece (pxk p) x (wf_inc p W)) as Hi. destruct (piece_left _ _ _ (wf_inc p W) Hi) as (e & He & Hl).
  exists e, (piece p comp (ssearch (pxk p) x)). split; [exact He|]. split.
  - intros t Ht. apply val_piece; auto.
  - rewrite (dval_piece p d comp _ x W P E Hb Hi). apply piece_d.
Qed.
(* two differentiable functions that agree to the left of x *)
Lemma left_unique F G x a b e : 0 < e -> (forall t, x - e < t <= x -> F t = G t) -> derivable_pt_lim F x a -> derivable_pt_lim G x b -> a = b.
Proof.
  intros He Hfg HF HG. destruct (Req_dec a b) as [|N]; [auto|exfalso].
  assert (Hd : 0 < Rabs (a - b) / 2) by (pose proof (Rabs_pos_lt (a - b) ltac:(lra)); lra).
  destruct (HF _ Hd) as ([d1 P1] & D1). destruct (HG _ Hd) as ([d2 P2] & D2). cbn in D1, D2.
  set (h := - (Rmin e (Rmin d1 d2) / 2)).
  assert (M : 0 < Rmin e (Rmin d1 d2)) by (repeat apply Rmin_pos; auto).
  pose proof (Rmin_l e (Rmin d1 d2)). pose proof (Rmin_r e (Rmin d1 d2)). pose proof (Rmin_l d1 d2). pose proof (Rmin_r d1 d2).
  assert (Hh : h < 0) by (unfold h; lra). assert (Ha : Rabs h = - h) by (apply Rabs_left; auto).
  specialize (D1 h ltac:(lra) ltac:(rewrite Ha; unfold h; lra)). specialize (D2 h ltac:(lra) ltac:(rewrite Ha; unfold h; lra)).
  rewrite (Hfg (x + h)) in D1 by (unfold h in *; lra). rewrite (Hfg x) in D1 by lra.
  set (q := (G (x + h) - G x) / h) in *.
  assert (Rabs (a - b) <= Rabs (q - b) + Rabs (q - a)); [|lra].
  replace (a - b) with ((q - b) - (q - a)) by ring. eapply Rle_trans; [apply Rabs_triang|]. rewrite Rabs_Ropp. lra.
Qed.

Lemma operand_idx s t u comp : bshape s t = Some u -> inb comp u -> inb (bidx s comp) s /\ inb (bidx t comp) t.
Proof. intros H Hc. split; [exact (bidx_inb s t u comp H Hc)|]. rewrite bshape_comm in H. exact (bidx_inb t s u comp H Hc). Qed.
(* the derivative of a result in terms of the operands *)
Lemma deriv_rule op dop p q r s : (forall F G x a b, derivable_pt_lim F x a -> derivable_pt_lim G x b -> derivable_pt_lim (fun t => op (F t) (G t)) x (dop (F x) (G x) a b)) ->
  pw_wf p -> pw_wf q -> pcl p = Pw -> pcl q = Pw -> bshape (pshape p) (pshape q) = Some s -> pointwise op p q r s ->
  forall dp dq dr comp x, deriv p 1 = Ok dp -> deriv q 1 = Ok dq -> deriv r 1 = Ok dr -> inb comp s ->
  pw_val dr comp x = dop (pw_val p (bidx (pshape p) comp) x) (pw_val q (bidx (pshape q) comp) x) (pw_val dp (bidx (pshape p) comp) x) (pw_val dq (bidx (pshape q) comp) x).
Proof.
  intros Hop Wp Wq Cp Cq Hs PT dp dq dr comp x Ep Eq Er Hc.
  destruct (operand_idx _ _ _ comp Hs Hc) as [Ip Iq].
  destruct (germ p dp _ x Wp Cp Ep Ip) as (e1 & F & H1 & F1 & F2). destruct (germ q dq _ x Wq Cq Eq Iq) as (e2 & G & H2 & G1 & G2).
  destruct (germ r dr comp x (pt_wf _ _ _ _ _ PT)) as (e3 & H & H3 & K1 & K2); auto; [rewrite (pt_cl _ _ _ _ _ PT); auto|rewrite (pt_sh _ _ _ _ _ PT); auto|].
  rewrite (F1 x), (G1 x) by lra.
  apply (left_unique H (fun t => op (F t) (G t)) x _ _ (Rmin e3 (Rmin e1 e2))); auto; [repeat apply Rmin_pos; auto|].
  intros t Ht. pose proof (Rmin_l e3 (Rmin e1 e2)). pose proof (Rmin_r e3 (Rmin e1 e2)). pose proof (Rmin_l e1 e2). pose proof (Rmin_r e1 e2).
  rewrite <- K1, <- F1, <- G1 by lra. apply (pt_val _ _ _ _ _ PT). auto.
Qed.

Lemma add_pt p q s : compatible p q -> bshape (pshape p) (pshape q) = Some s -> exists a, padd p q = Ok a /\ pointwise Rplus p q a s.
Proof. intros Hc Hs. destruct (addsub_ok p q Rplus 1 s (compatible_operands p q Hc)) as (a & Ea & Pa & _); [intros; ring|exact Hs|eauto]. Qed.
Lemma sub_pt p q s : compatible p q -> bshape (pshape p) (pshape q) = Some s -> exists a, psub p q = Ok a /\ pointwise Rminus p q a s.
Proof. intros Hc Hs. destruct (addsub_ok p q Rminus (-1) s (compatible_operands p q Hc)) as (a & Ea & Pa & _); [intros; ring|exact Hs|eauto]. Qed.
Lemma mul_pt p q s : compatible p q -> bshape (pshape p) (pshape q) = Some s -> exists a, pmul p q = Ok a /\ pointwise Rmult p q a s.
Proof. intros Hc Hs. destruct (pmul_ok p q s (compatible_operands p q Hc) Hs) as (a & Ea & Pa & _). eauto. Qed.

(** ** C118 *)
(* sums, differences and products are differentiated by the usual rules, at the knots too *)
Theorem C118_deriv : forall (p q : pwpoly R) s, compatible p q -> pcl p = Pw -> bshape (pshape p) (pshape q) = Some s ->
  exists a b m dp dq da db dm, padd p q = Ok a /\ psub p q = Ok b /\ pmul p q = Ok m /\
    deriv p 1 = Ok dp /\ deriv q 1 = Ok dq /\ deriv a 1 = Ok da /\ deriv b 1 = Ok db /\ deriv m 1 = Ok dm /\
    forall comp x, inb comp s -> exists u v u' v',
      pw_call p (bidx (pshape p) comp) x = Ok u /\ pw_call q (bidx (pshape q) comp) x = Ok v /\
      pw_call dp (bidx (pshape p) comp) x = Ok u' /\ pw_call dq (bidx (pshape q) comp) x = Ok v' /\
      pw_call da comp x = Ok (u' + v') /\ pw_call db comp x = Ok (u' - v') /\ pw_call dm comp x = Ok (u' * v + u * v').
Proof.
  intros p q s Hc Cp Hs. destruct (add_pt p q s Hc Hs) as (a & Ea & Pa). destruct (sub_pt p q s Hc Hs) as (b & Eb & Pb). destruct (mul_pt p q s Hc Hs) as (m & Em & Pm).
  destruct Hc as (Wp & Wq & Cq & _). rewrite Cp in Cq.
  destruct (deriv_ok p 1 Wp) as (dp & Ep & Wdp & _). destruct (deriv_ok q 1 Wq) as (dq & Eq & Wdq & _).
  destruct (deriv_ok a 1 (pt_wf _ _ _ _ _ Pa)) as (da & Eda & Wda & _). destruct (deriv_ok b 1 (pt_wf _ _ _ _ _ Pb)) as (db & Edb & Wdb & _).
  destruct (deriv_ok m 1 (pt_wf _ _ _ _ _ Pm)) as (dm & Edm & Wdm & _).
  exists a, b, m, dp, dq, da, db, dm. do 8 (split; [assumption|]). intros comp x Hi.
  rewrite !pw_call_wf by auto. do 4 eexists. do 4 (split; [reflexivity|]).
  rewrite (deriv_rule Rplus (fun _ _ u v => u + v) p q a s (fun F G x a b => derivable_pt_lim_plus F G x a b) Wp Wq Cp Cq Hs Pa dp dq da comp x) by auto.
  rewrite (deriv_rule Rminus (fun _ _ u v => u - v) p q b s (fun F G x a b => derivable_pt_lim_minus F G x a b) Wp Wq Cp Cq Hs Pb dp dq db comp x) by auto.
  rewrite (deriv_rule Rmult (fun f g u v => u * g + f * v) p q m s (fun F G x a b => derivable_pt_lim_mult F G x a b) Wp Wq Cp Cq Hs Pm dp dq dm comp x) by auto.
  auto.
Qed.

(* derivatives of derivatives; periodic functions too *)
Theorem C118_deriv_deriv : forall (p : pwpoly R) m n, pw_wf p ->
  exists d d2 d3, deriv p m = Ok d /\ deriv d n = Ok d2 /\ deriv p (m + n) = Ok d3 /\
    forall comp x, inb comp (pshape p) -> pw_call d2 comp x = pw_call d3 comp x.
Proof.
  intros p m n W. destruct (deriv_ok p m W) as (d & E & Wd & D1 & D2 & D3 & D4 & D5). destruct (deriv_ok d n Wd) as (d2 & E2 & Wd2 & _).
  destruct (deriv_ok p (m + n) W) as (d3 & E3 & Wd3 & _). exists d, d2, d3. do 3 (split; [assumption|]).
  intros comp x Hi. rewrite !pw_call_wf by auto. f_equal.
  rewrite (deriv_val d n d2 comp x Wd E2) by (rewrite D3; exact Hi). rewrite (deriv_val p (m + n) d3 comp x W E3 Hi). cbv zeta.
  rewrite (reduce_same d p x) by auto. unfold pxk at 1 2. rewrite D2. fold (pxk p). rewrite D5 by (auto; apply piece_lt; auto).
  rewrite tay_dcolm. pose proof (not_0_INR _ (fact_neq_0 n)). field. assumption.
Qed.

(* the integral of the derivative of a continuous p *)
Lemma rint_deriv p d comp : pw_wf p -> pcl p = Pw -> deriv p 1 = Ok d -> inb comp (pshape p) -> (forall x, continuity_pt (pw_val p comp) x) ->
  forall a b, is_RInt (pw_val d comp) a b (pw_val p comp b - pw_val p comp a).
Proof.
  intros W P E Hb Hcont. apply (ftc (pxk p) (pw_val d comp) (pw_val p comp) (dpiece p comp) (piece p comp)); try apply W; auto.
  - intros x N. destruct (C33_deriv_partial p 1 W) as (d' & E' & _ & _ & _ & _ & _ & H). assert (d' = d) by congruence. subst d'.
    destruct (H comp x Hb) as (_ & L & _). destruct L as (e & F & He & HF & g & (h & Hh & Hd) & Hg).
    + intros j n Hj. rewrite P. intros Ex. apply N. exists j. auto.
    + rewrite <- Hg. apply (dpl_local _ F x _ e He HF). intros eps Heps. destruct (Hd x eps Heps) as (dl & Hdl). exists dl. intros k Hk Hk'.
      rewrite <- !Hh. auto.
  - intros i x. apply piece_d.
  - intros i x. apply (continuity_pt_ext' (fun t => peval (dcol (ccol (pc p) comp i)) (t - nth i (pxk0 p) 0))); [|apply peval_shift_cont].
    intros t. apply dcol_peval.
  - intros i x Hi. apply dval_piece; auto.
Qed.

Lemma rint_of (f : R -> R) (a b v : R) : (exists pr : Riemann_integrable f a b, RiemannInt pr = v) -> is_RInt f a b v.
Proof.
  intros (pr & <-). rewrite <- RInt_Reals. apply (RInt_correct (V := R_CompleteNormedModule)). apply ex_RInt_Reals_1. exact pr.
Qed.
Lemma rint_eq (f : R -> R) (a b u v : R) : is_RInt f a b u -> is_RInt f a b v -> u = v.
Proof. intros H1 H2. rewrite <- (is_RInt_unique _ _ _ _ H1). apply is_RInt_unique. exact H2. Qed.

(* integrating the derivative gives a continuous p back, up to the constant *)
Theorem C118_integ_deriv : forall (p : pwpoly R) (k : nd R) lbnd, pw_wf p -> pcl p = Pw -> shp k = pshape p -> continuous_pw p ->
  exists d F, deriv p 1 = Ok d /\ integ d 1 k lbnd = Ok F /\
    forall comp x, inb comp (pshape p) -> exists u u0, pw_call p comp x = Ok u /\ pw_call p comp lbnd = Ok u0 /\ pw_call F comp x = Ok (u - u0 + get k comp).
Proof.
  intros p k lbnd W P Hk Hcont. destruct (deriv_ok p 1 W) as (d & E & Wd & D1 & D2 & D3 & _).
  assert (Sd : pshape d = pshape p) by exact D3.
  destruct (C34_integ d k lbnd Wd) as (F & EF & WF & _ & _ & _ & _ & HF & _); [congruence|congruence|].
  exists d, F. split; [exact E|]. split; [exact EF|]. intros comp x Hi. rewrite !pw_call_wf by auto. do 2 eexists. do 2 (split; [reflexivity|]). f_equal.
  destruct (HF comp) as (_ & _ & H0 & HI); [congruence|].
  pose proof (rint_eq _ _ _ _ _ (rint_of _ _ _ _ (HI lbnd x)) (rint_deriv p d comp W P E Hi (fun y => Hcont comp y Hi) lbnd x)). lra.
Qed.

(* the integral of a sum *)
Theorem C118_integ_add : forall (p q : pwpoly R) s (kp kq k : nd R) lbnd, compatible p q -> pcl p = Pw -> bshape (pshape p) (pshape q) = Some s ->
  shp kp = pshape p -> shp kq = pshape q -> shp k = s ->
  (forall comp, inb comp s -> get k comp = get kp (bidx (pshape p) comp) + get kq (bidx (pshape q) comp)) ->
  exists a P Q A, padd p q = Ok a /\ integ p 1 kp lbnd = Ok P /\ integ q 1 kq lbnd = Ok Q /\ integ a 1 k lbnd = Ok A /\
    forall comp x, inb comp s -> exists u v, pw_call P (bidx (pshape p) comp) x = Ok u /\ pw_call Q (bidx (pshape q) comp) x = Ok v /\ pw_call A comp x = Ok (u + v).
Proof.
  intros p q s kp kq k lbnd Hc Cp Hs Hkp Hkq Hk Hsum. destruct (add_pt p q s Hc Hs) as (a & Ea & Pa).
  destruct Hc as (Wp & Wq & Cq & _). rewrite Cp in Cq.
  destruct (C34_integ p kp lbnd Wp Cp Hkp) as (P & EP & WP & _ & _ & _ & _ & HP & _).
  destruct (C34_integ q kq lbnd Wq Cq Hkq) as (Q & EQ & WQ & _ & _ & _ & _ & HQ & _).
  destruct (C34_integ a k lbnd (pt_wf _ _ _ _ _ Pa)) as (A & EA & WA & _ & _ & _ & _ & HA & _); [rewrite (pt_cl _ _ _ _ _ Pa); auto|rewrite (pt_sh _ _ _ _ _ Pa); auto|].
  exists a, P, Q, A. do 4 (split; [assumption|]). intros comp x Hi. rewrite !pw_call_wf by auto. do 2 eexists. do 2 (split; [reflexivity|]). f_equal.
  destruct (operand_idx _ _ _ comp Hs Hi) as [Ip Iq].
  destruct (HP _ Ip) as (_ & _ & P0 & PI). destruct (HQ _ Iq) as (_ & _ & Q0 & QI). destruct (HA comp) as (_ & _ & A0 & AI); [rewrite (pt_sh _ _ _ _ _ Pa); auto|].
  pose proof (is_RInt_plus _ _ _ _ _ _ (rint_of _ _ _ _ (PI lbnd x)) (rint_of _ _ _ _ (QI lbnd x))) as HS.
  apply (is_RInt_ext _ (pw_val a comp)) in HS.
  - pose proof (rint_eq _ _ _ _ _ (rint_of _ _ _ _ (AI lbnd x)) HS) as HE. unfold plus in HE. cbn in HE. rewrite (Hsum comp Hi) in A0. lra.
  - intros t _. unfold plus. cbn. symmetry. apply (pt_val _ _ _ _ _ Pa). auto.
Qed.

(* integration by parts *)
Theorem C118_parts : forall (p q : pwpoly R) s (k1 k2 : nd R) l1 l2, compatible p q -> pcl p = Pw -> bshape (pshape p) (pshape q) = Some s ->
  continuous_pw p -> continuous_pw q -> shp k1 = s -> shp k2 = s ->
  exists dp dq m1 m2 F1 F2, deriv p 1 = Ok dp /\ deriv q 1 = Ok dq /\ pmul dp q = Ok m1 /\ pmul p dq = Ok m2 /\
    integ m1 1 k1 l1 = Ok F1 /\ integ m2 1 k2 l2 = Ok F2 /\
    forall comp a b, inb comp s -> exists ua ub va vb fa fb ga gb,
      pw_call p (bidx (pshape p) comp) a = Ok ua /\ pw_call p (bidx (pshape p) comp) b = Ok ub /\
      pw_call q (bidx (pshape q) comp) a = Ok va /\ pw_call q (bidx (pshape q) comp) b = Ok vb /\
      pw_call F1 comp a = Ok fa /\ pw_call F1 comp b = Ok fb /\ pw_call F2 comp a = Ok ga /\ pw_call F2 comp b = Ok gb /\
      fb - fa = ub * vb - ua * va - (gb - ga).
Proof.
  intros p q s k1 k2 l1 l2 Hc Cp Hs Kp Kq Hk1 Hk2. pose proof Hc as (Wp & Wq & Cq & Hper & Hsep). rewrite Cp in Cq.
  destruct (deriv_ok p 1 Wp) as (dp & Ep & Wdp & P1 & P2 & P3 & _). destruct (deriv_ok q 1 Wq) as (dq & Eq & Wdq & Q1 & Q2 & Q3 & _).
  assert (Xp : pxk dp = pxk p) by (unfold pxk; congruence). assert (Xq : pxk dq = pxk q) by (unfold pxk; congruence).
  assert (Sp : pshape dp = pshape p) by exact P3. assert (Sq : pshape dq = pshape q) by exact Q3.
  assert (C1 : compatible dp q) by (split; [auto|split; [auto|split; [congruence|split; [rewrite P1, Xp; auto|rewrite Xp; auto]]]]).
  assert (C2 : compatible p dq) by (split; [auto|split; [auto|split; [congruence|split; [rewrite Xq; auto|rewrite Xq; auto]]]]).
  destruct (mul_pt p q s Hc Hs) as (m & Em & Pm).
  destruct (mul_pt dp q s C1) as (m1 & Em1 & Pm1); [congruence|]. destruct (mul_pt p dq s C2) as (m2 & Em2 & Pm2); [congruence|].
  destruct (C34_integ m1 k1 l1 (pt_wf _ _ _ _ _ Pm1)) as (F1 & EF1 & WF1 & _ & _ & _ & _ & HF1 & _); [rewrite (pt_cl _ _ _ _ _ Pm1); congruence|rewrite (pt_sh _ _ _ _ _ Pm1); auto|].
  destruct (C34_integ m2 k2 l2 (pt_wf _ _ _ _ _ Pm2)) as (F2 & EF2 & WF2 & _ & _ & _ & _ & HF2 & _); [rewrite (pt_cl _ _ _ _ _ Pm2); congruence|rewrite (pt_sh _ _ _ _ _ Pm2); auto|].
  exists dp, dq, m1, m2, F1, F2. do 6 (split; [assumption|]). intros comp a b Hi. rewrite !pw_call_wf by auto. do 8 eexists. do 8 (split; [reflexivity|]).
  destruct (operand_idx _ _ _ comp Hs Hi) as [Ip Iq].
  destruct (HF1 comp) as (_ & _ & _ & I1); [rewrite (pt_sh _ _ _ _ _ Pm1); auto|]. destruct (HF2 comp) as (_ & _ & _ & I2); [rewrite (pt_sh _ _ _ _ _ Pm2); auto|].
  destruct (deriv_ok m 1 (pt_wf _ _ _ _ _ Pm)) as (dm & Edm & Wdm & _).
  assert (HM : is_RInt (pw_val dm comp) a b (pw_val m comp b - pw_val m comp a)).
  { apply (rint_deriv m dm comp (pt_wf _ _ _ _ _ Pm)); auto; [rewrite (pt_cl _ _ _ _ _ Pm); auto|rewrite (pt_sh _ _ _ _ _ Pm); auto|].
    intros x. apply (continuity_pt_ext' (fun t => pw_val p (bidx (pshape p) comp) t * pw_val q (bidx (pshape q) comp) t)).
    - intros t. symmetry. apply (pt_val _ _ _ _ _ Pm). auto.
    - apply continuity_pt_mult; auto. }
  pose proof (is_RInt_plus _ _ _ _ _ _ (rint_of _ _ _ _ (I1 a b)) (rint_of _ _ _ _ (I2 a b))) as HS.
  apply (is_RInt_ext _ (pw_val dm comp)) in HS.
  - pose proof (rint_eq _ _ _ _ _ HM HS) as HE. unfold plus in HE. cbn in HE. rewrite !(pt_val _ _ _ _ _ Pm) in HE by auto. lra.
  - intros t _. unfold plus. cbn. rewrite (pt_val _ _ _ _ _ Pm1), (pt_val _ _ _ _ _ Pm2) by auto. rewrite Sp, Sq. symmetry.
    apply (deriv_rule Rmult (fun f g u v => u * g + f * v) p q m s (fun F G x a b => derivable_pt_lim_mult F G x a b) Wp Wq Cp Cq Hs Pm dp dq dm comp t); auto.
Qed.

(** ** concrete cases *)
(* the product rule at 1, where ex_p jumps *)
Example C118_deriv_case : exists m dm, pmul ex_p ex_q = Ok m /\ deriv m 1 = Ok dm /\ pw_call dm [1%nat] 1 = Ok (15 / 4).
Proof.
  destruct (C118_deriv ex_p ex_q [2%nat] ex_compatible eq_refl eq_refl) as (a & b & m & dp & dq & da & db & dm & _ & _ & Em & Ep & Eq & _ & _ & Edm & H).
  exists m, dm. split; [exact Em|]. split; [exact Edm|].
  destruct (H [1%nat] 1 ltac:(repeat constructor)) as (u & v & u' & v' & Hu & Hv & Hu' & Hv' & _ & _ & ->). f_equal.
  destruct (deriv_ok ex_p 1 ex_p_wf) as (dp' & Ep' & Wdp & _). destruct (deriv_ok ex_q 1 ex_q_wf) as (dq' & Eq' & Wdq & _).
  assert (dp' = dp) by congruence. assert (dq' = dq) by congruence. subst dp' dq'.
  assert (Ip : in_piece (pxk ex_p) 1 1).
  { split; [cbn; lia|]. split; intros j Hj; cbn in Hj; assert (j = 0%nat \/ j = 1%nat) as [-> | ->] by lia; cbn; lra || lia. }
  assert (Iq : in_piece (pxk ex_q) 1 1).
  { split; [cbn; lia|]. split; intros j Hj; cbn in Hj; [assert (j = 0%nat) by lia; subst; cbn; lra|lia]. }
  rewrite !pw_call_wf in * by auto using ex_p_wf, ex_q_wf. cbn [bidx pshape csh pc ex_p ex_q zipw] in *.
  rewrite (val_piece ex_p _ 1 1 ex_p_wf eq_refl Ip) in Hu. rewrite (val_piece ex_q _ 1 1 ex_q_wf eq_refl Iq) in Hv.
  rewrite (dval_piece ex_p dp _ 1 1 ex_p_wf eq_refl Ep (Forall2_nil _) Ip) in Hu'.
  rewrite (dval_piece ex_q dq _ 1 1 ex_q_wf eq_refl Eq) in Hv' by (auto; repeat constructor).
  injection Hu as <-. injection Hv as <-. injection Hu' as <-. injection Hv' as <-.
  unfold piece, dpiece, tay, peval. cbn. lra.
Qed.
(* 0 up to 0, x on (0,1], 1 beyond *)
Definition ex_ramp : pwpoly R := PwP Pw [0; 0; 1] (CArr 2 [] 3 (fun _ i => nth i [[0; 0]; [0; 1]; [1; 0]] [])) None.
Example ex_ramp_ok : pw_wf ex_ramp /\ continuous_pw ex_ramp /\ compatible ex_ramp ex_ramp.
Proof.
  assert (W : pw_wf ex_ramp).
  { split; cbn; try lia; try reflexivity.
    - split; cbn; [lia|]. intros comp i _ Hi. destruct i as [|[|[|i]]]; cbn; reflexivity || lia.
    - intros [|i] Hi; cbn in *; [lra|lia].
    - discriminate. }
  split; [exact W|]. split.
  - intros comp x _. apply (continuity_pt_ext' (base ex_ramp comp)); [intros t; rewrite pw_val_base, pw_reduce_Pw; reflexivity|].
    destruct (is_knot_dec (pxk ex_ramp) x) as [(j & Hj & ->)|N]; [|apply base_continuous_nonknot; [apply W|exact N]].
    apply base_continuous_knot; [apply W|exact Hj|]. cbn in Hj. unfold match_at, tay. assert (j = 0%nat \/ j = 1%nat) as [-> | ->] by lia; cbn; lra.
  - split; [exact W|]. split; [exact W|]. split; [reflexivity|]. split; [discriminate|]. apply (sep_list _ _ 1); [| |lra].
    + intros x y Hx Hy N. cbn in Hx, Hy. assert (Hx' : x = 0 \/ x = 1) by intuition. assert (Hy' : y = 0 \/ y = 1) by intuition.
      unfold Rabs. destruct Hx' as [->| ->], Hy' as [->| ->]; try (exfalso; apply N; reflexivity); repeat destruct (Rcase_abs _); split; lra.
    + intros u v Hu Hv. cbn in Hu, Hv. assert (u = 0 \/ u = 1) by intuition. assert (v = 0 \/ v = 1) by intuition. intuition; lra.
Qed.
(* its derivative integrated from 1 with the constant 5 *)
Example C118_integ_deriv_case : exists d F, deriv ex_ramp 1 = Ok d /\ integ d 1 (scalar 5) 1 = Ok F /\ pw_call F [] (1 / 2) = Ok (9 / 2).
Proof.
  destruct ex_ramp_ok as (W & C & _). destruct (C118_integ_deriv ex_ramp (scalar 5) 1 W eq_refl eq_refl C) as (d & F & Ed & EF & H).
  exists d, F. split; [exact Ed|]. split; [exact EF|]. destruct (H [] (1 / 2) (Forall2_nil _)) as (u & u0 & Hu & Hu0 & ->). f_equal.
  rewrite pw_call_wf in Hu, Hu0 by exact W. rewrite (val_piece ex_ramp _ 1 _ W eq_refl) in Hu. 1: rewrite (val_piece ex_ramp _ 1 _ W eq_refl) in Hu0.
  1: injection Hu as <-; injection Hu0 as <-; unfold piece, peval; cbn; lra.
  all: split; [cbn; lia|]; split; intros j Hj; cbn in Hj; assert (j = 0%nat \/ j = 1%nat) as [-> | ->] by lia; cbn; lra || lia.
Qed.

Print Assumptions C118_deriv.
Print Assumptions C118_deriv_deriv.
Print Assumptions C118_integ_deriv.
Print Assumptions C118_integ_add.
Print Assumptions C118_parts.
