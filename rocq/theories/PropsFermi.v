(* C77, C78: the Fermi-Dirac functions are evaluated elementwise by the right branch;
   they are well defined, and the integrals are positive. *)
From Coq Require Import List Arith ZArith QArith Qreals Bool Lia Reals Lra.
From Verif Require Import Num PyBase NdArray RSum PolySign Fermi FermiProofs.
Import ListNotations.
Open Scope R_scope.

(** ** Spec *)
(* the function F maps every array to an array of the same shape, each element of
   which is a function of the element at the same place *)
Definition elementwise (F : nd R -> res (nd (option R))) (g : R -> option R) : Prop :=
  forall x, exists y, F x = Ok y /\ shp y = shp x /\
    forall idx, inb idx (shp x) -> get y idx = g (get x idx).
(* a quotient that is a number only if the denominator is not 0 *)
Definition quot (a b : R) : option R := if Req_EM_T b 0 then None else Some (a / b).
Definition lnq (a : option R) : option R :=
  match a with Some v => if Rlt_dec 0 v then Some (ln v) else None | None => None end.
(* [poly c z] is the sum of c[i] * z^(n-1-i).
   Order j: below 2, z P(z) / Q(z) with z = e^x; from 2 on, x^(j+1) P(z) / Q(z) with
   z = x^-2. *)
Definition integral_value (j : R) (anum aden bnum bden : list Q) (x : R) : option R :=
  if Rlt_dec x 2 then let z := exp x in quot (z * poly (tab anum) z) (poly (tab aden) z)
  else let z := Rpower x (-2) in quot (Rpower x (j + 1) * poly (tab bnum) z) (poly (tab bden) z).
(* inverse of order j: below 4, ln (x P(x) / Q(x)); from 4 on, P(z) / (z Q(z)) with
   z = x^(-1/(j+1)) *)
Definition inverse_value (j : R) (anum aden bnum bden : list Q) (x : R) : option R :=
  if Rlt_dec x 4 then lnq (quot (x * poly (tab anum) x) (poly (tab aden) x))
  else let z := Rpower x (- (1 / (j + 1))) in quot (poly (tab bnum) z) (z * poly (tab bden) z).

(** ** Lemmas *)
Lemma quot_odiv a b : odiv a b = quot a b.
Proof. unfold odiv, quot. destruct (Reqb_spec b 0), (Req_EM_T b 0); congruence. Qed.
Lemma lnq_olog a : olog a = lnq a.
Proof. destruct a as [v|]; [|reflexivity]. cbn. destruct (Rltb_spec 0 v), (Rlt_dec 0 v); auto; contradiction. Qed.
Lemma inv_sq x : 0 < x -> 1 / (x * x) = Rpower x (-2).
Proof.
  intros H. replace (-2) with (- INR 2) by (cbn; lra). rewrite Rpower_Ropp, Rpower_pow by auto.
  cbn [pow]. field. lra.
Qed.
Lemma sqrt_pow x n : 0 < x -> sqrt x * x ^ n = Rpower x (/ 2 + INR n).
Proof. intros H. rewrite Rpower_plus, Rpower_sqrt, Rpower_pow by auto. reflexivity. Qed.

Lemma fd_value j f anum aden bnum bden x :
  (forall x, 0 < x -> sqrt x * f x = Rpower x (j + 1)) ->
  fd_elem anum aden bnum bden f x = integral_value j anum aden bnum bden x.
Proof.
  intros Hf. unfold fd_elem, integral_value. rewrite !quot_odiv, !horner_poly.
  destruct (Rltb_spec x 2), (Rlt_dec x 2); try contradiction; [reflexivity|].
  cbv zeta. rewrite Hf, inv_sq by lra. reflexivity.
Qed.
Lemma ifd_value j f anum aden bnum bden x :
  (forall x, 0 < x -> f x = Rpower x (- (1 / (j + 1)))) ->
  ifd_elem anum aden bnum bden f x = inverse_value j anum aden bnum bden x.
Proof.
  intros Hf. unfold ifd_elem, inverse_value. rewrite !quot_odiv, !horner_poly, lnq_olog.
  destruct (Rltb_spec x 4), (Rlt_dec x 4); try contradiction; [reflexivity|].
  cbv zeta. rewrite Hf by lra. reflexivity.
Qed.
Lemma fd_elementwise j f anum aden bnum bden :
  (forall x, 0 < x -> sqrt x * f x = Rpower x (j + 1)) ->
  (2 <= length anum)%nat -> (2 <= length aden)%nat -> (2 <= length bnum)%nat -> (2 <= length bden)%nat ->
  elementwise (fd_template anum aden bnum bden f) (integral_value j anum aden bnum bden).
Proof.
  intros Hf L1 L2 L3 L4 x. destruct (fd_template_ok anum aden bnum bden f x L1 L2 L3 L4) as (y & E & S & G).
  exists y. split; [exact E|]. split; [exact S|]. intros idx Hi. rewrite G by auto. now apply fd_value.
Qed.
Lemma ifd_elementwise j f anum aden bnum bden :
  (forall x, 0 < x -> f x = Rpower x (- (1 / (j + 1)))) ->
  (2 <= length anum)%nat -> (2 <= length aden)%nat -> (2 <= length bnum)%nat -> (2 <= length bden)%nat ->
  elementwise (ifd_template anum aden bnum bden f) (inverse_value j anum aden bnum bden).
Proof.
  intros Hf L1 L2 L3 L4 x. destruct (ifd_template_ok anum aden bnum bden f x L1 L2 L3 L4) as (y & E & S & G).
  exists y. split; [exact E|]. split; [exact S|]. intros idx Hi. rewrite G by auto. now apply ifd_value.
Qed.

Ltac sides := try match goal with
  | |- (2 <= length _)%nat => apply Nat.leb_le; vm_compute; reflexivity
  | |- _ = true => vm_compute; reflexivity
  end.
(** ** C77 *)
Definition j_m12 := - (1 / 2). Definition j_12 := 1 / 2. Definition j_32 := 3 / 2. Definition j_52 := 5 / 2.
Ltac half n := intros x Hx; replace (Rpower x _) with (sqrt x * x ^ n) by
  (rewrite sqrt_pow by auto; f_equal; unfold j_m12, j_12, j_32, j_52; cbn; field); cbn [pow]; ring.
Theorem C77_integrals :
  elementwise fdm12 (integral_value (- (1 / 2)) fdm12_anum fdm12_aden fdm12_bnum fdm12_bden) /\
  elementwise fd12 (integral_value (1 / 2) fd12_anum fd12_aden fd12_bnum fd12_bden) /\
  elementwise fd32 (integral_value (3 / 2) fd32_anum fd32_aden fd32_bnum fd32_bden) /\
  elementwise fd52 (integral_value (5 / 2) fd52_anum fd52_aden fd52_bnum fd52_bden).
Proof.
  repeat split; apply fd_elementwise; sides.
  - half 0%nat.
  - half 1%nat.
  - half 2%nat.
  - half 3%nat.
Qed.
Theorem C77_inverses :
  elementwise ifdm12 (inverse_value (- (1 / 2)) ifdm12_anum ifdm12_aden ifdm12_bnum ifdm12_bden) /\
  elementwise ifd12 (inverse_value (1 / 2) ifd12_anum ifd12_aden ifd12_bnum ifd12_bden) /\
  elementwise ifd32 (inverse_value (3 / 2) ifd32_anum ifd32_aden ifd32_bnum ifd32_bden) /\
  elementwise ifd52 (inverse_value (5 / 2) ifd52_anum ifd52_aden ifd52_bnum ifd52_bden).
Proof.
  repeat split; apply ifd_elementwise; sides; intros x Hx.
  - rewrite inv_sq by auto. f_equal. field.
  - f_equal. field.
  - f_equal. field.
  - f_equal. field.
Qed.
(* the value at one element does not depend on the others, nor on the shape *)
Theorem C77_independent : forall F g, elementwise F g ->
  forall x x' y y' idx idx', F x = Ok y -> F x' = Ok y' -> inb idx (shp x) -> inb idx' (shp x') ->
  get x idx = get x' idx' -> get y idx = get y' idx'.
Proof.
  intros F g H x x' y y' idx idx' E E' Hi Hi' Eq.
  destruct (H x) as (v & Ev & _ & Gv). destruct (H x') as (v' & Ev' & _ & Gv').
  rewrite E in Ev. rewrite E' in Ev'. injection Ev as <-. injection Ev' as <-.
  rewrite Gv, Gv' by auto. now rewrite Eq.
Qed.

(** ** C78 *)
Lemma pow_neg2_range x : 2 <= x -> Q2R 0 <= 1 / (x * x) <= Q2R (1 # 4).
Proof.
  intros H. rewrite Q2R_0. assert (Q2R (1 # 4) = 1 / 4) as -> by (unfold Q2R; cbn; lra).
  assert (0 < x * x) by nra. split.
  - apply Rlt_le. apply Rdiv_lt_0_compat; lra.
  - apply Rmult_le_reg_r with (x * x); auto. unfold Rdiv. rewrite Rmult_assoc, Rinv_l by lra. nra.
Qed.
(* small-argument branch: all coefficients are positive; large-argument branch: the
   signs on [0, 1/4] are checked by PolySign.v *)
Definition allpos (c : list Q) : bool := forallb (fun q => negb (Qle_bool q 0)) c.
Lemma quot_pos a b : 0 < a -> 0 < b -> exists v, odiv a b = Some v /\ 0 < v.
Proof.
  intros Ha Hb. unfold odiv. destruct (Reqb_spec b 0) as [E|E]; [lra|]. eexists; split; [reflexivity|].
  now apply Rdiv_lt_0_compat.
Qed.
Lemma fd_pos s f anum aden bnum bden x :
  (forall x, 0 < x -> 0 < f x) -> (2 <= length anum)%nat -> (2 <= length aden)%nat ->
  allpos anum = true -> allpos aden = true ->
  chk s 12 bnum 0 (1 # 4) = true -> chk s 12 bden 0 (1 # 4) = true ->
  exists v, fd_elem anum aden bnum bden f x = Some v /\ 0 < v.
Proof.
  intros Hf L1 L2 A1 A2 B1 B2. unfold fd_elem. destruct (Rltb_spec x 2) as [L|L].
  - pose proof (exp_pos x) as E. apply quot_pos.
    + apply Rmult_lt_0_compat; auto. apply horner_pos; auto; [|now apply tab_pos].
      intros Z; apply map_eq_nil in Z; rewrite Z in L1; cbn in L1; lia.
    + apply horner_pos; auto; [|now apply tab_pos]. intros Z; apply map_eq_nil in Z; rewrite Z in L2; cbn in L2; lia.
  - cbv zeta. assert (Hz : 2 <= x) by lra. apply pow_neg2_range in Hz.
    pose proof (chk_sound _ _ _ _ _ _ B1 Hz) as S1. pose proof (chk_sound _ _ _ _ _ _ B2 Hz) as S2.
    assert (0 < sqrt x * f x) by (apply Rmult_lt_0_compat; [apply sqrt_lt_R0; lra | apply Hf; lra]).
    destruct s.
    + apply quot_pos; auto. now apply Rmult_lt_0_compat.
    + destruct (quot_pos (- (sqrt x * f x * horner (tab bnum) (1 / (x * x)))) (- horner (tab bden) (1 / (x * x))))
        as (v & Ev & Pv); [nra|lra|]. exists v. split; auto. rewrite <- Ev. unfold odiv.
      destruct (Reqb_spec (horner (tab bden) (1 / (x * x))) 0), (Reqb_spec (- horner (tab bden) (1 / (x * x))) 0); try lra.
      f_equal. field. lra.
Qed.

Definition all_positive (F : nd R -> res (nd (option R))) : Prop :=
  forall x, exists y, F x = Ok y /\ shp y = shp x /\
    forall idx, inb idx (shp x) -> exists v, get y idx = Some v /\ 0 < v.
Lemma fd_all_pos s f anum aden bnum bden :
  (forall x, 0 < x -> 0 < f x) -> (2 <= length anum)%nat -> (2 <= length aden)%nat ->
  (2 <= length bnum)%nat -> (2 <= length bden)%nat ->
  allpos anum = true -> allpos aden = true ->
  chk s 12 bnum 0 (1 # 4) = true -> chk s 12 bden 0 (1 # 4) = true ->
  all_positive (fd_template anum aden bnum bden f).
Proof.
  intros Hf L1 L2 L3 L4 A1 A2 B1 B2 x.
  destruct (fd_template_ok anum aden bnum bden f x L1 L2 L3 L4) as (y & E & S & G).
  exists y. split; [exact E|]. split; [exact S|]. intros idx Hi. rewrite G by auto. now apply (fd_pos s).
Qed.
Theorem C78_positive : all_positive fdm12 /\ all_positive fd12 /\ all_positive fd32 /\ all_positive fd52.
Proof.
  repeat split.
  - apply (fd_all_pos false); sides. intros; lra.
  - apply (fd_all_pos true); sides. intros; lra.
  - apply (fd_all_pos true); sides. intros; nra.
  - apply (fd_all_pos true); sides. intros x H.
    repeat apply Rmult_lt_0_compat; auto.
Qed.

(* the inverses *)
Lemma ifd_def s1 s2 s3 B f anum aden bnum bden x : 0 < x ->
  (4 <= x -> 0 < f x <= Q2R B) ->
  chk s1 12 anum 0 4 = true -> chk s1 12 aden 0 4 = true ->
  chk s2 12 bnum 0 B = true -> chk s3 12 bden 0 B = true ->
  exists v, ifd_elem anum aden bnum bden f x = Some v.
Proof.
  intros Hx Hf A1 A2 B1 B2. unfold ifd_elem. destruct (Rltb_spec x 4) as [L|L].
  - assert (Hz : Q2R 0 <= x <= Q2R 4) by (unfold Q2R; cbn; lra).
    pose proof (chk_sound _ _ _ _ _ _ A1 Hz) as S1. pose proof (chk_sound _ _ _ _ _ _ A2 Hz) as S2.
    unfold odiv. destruct (Reqb_spec (horner (tab aden) x) 0) as [E|E].
    { destruct s1; rewrite E in S2; lra. }
    assert (P : 0 < x * horner (tab anum) x / horner (tab aden) x).
    { destruct s1.
      - apply Rdiv_lt_0_compat; auto. now apply Rmult_lt_0_compat.
      - replace (x * horner (tab anum) x / horner (tab aden) x) with ((x * - horner (tab anum) x) / - horner (tab aden) x) by (field; lra).
        apply Rdiv_lt_0_compat; [|lra]. apply Rmult_lt_0_compat; lra. }
    cbn [olog]. destruct (Rltb_spec 0 (x * horner (tab anum) x / horner (tab aden) x)); [|contradiction]. eauto.
  - cbv zeta. destruct (Hf ltac:(lra)) as [F0 FB].
    assert (Hz : Q2R 0 <= f x <= Q2R B) by (rewrite Q2R_0; lra).
    pose proof (chk_sound _ _ _ _ _ _ B2 Hz) as S2.
    unfold odiv. destruct (Reqb_spec (f x * horner (tab bden) (f x)) 0) as [E|E]; [|eauto].
    exfalso. destruct s3; nra.
Qed.
Definition defined_for_positive (F : nd R -> res (nd (option R))) : Prop :=
  forall x, (forall idx, inb idx (shp x) -> 0 < get x idx) ->
    exists y, F x = Ok y /\ shp y = shp x /\
      forall idx, inb idx (shp x) -> exists v, get y idx = Some v.
Lemma ifd_all_def s1 s2 s3 B f anum aden bnum bden :
  (forall x, 4 <= x -> 0 < f x <= Q2R B) ->
  (2 <= length anum)%nat -> (2 <= length aden)%nat -> (2 <= length bnum)%nat -> (2 <= length bden)%nat ->
  chk s1 12 anum 0 4 = true -> chk s1 12 aden 0 4 = true ->
  chk s2 12 bnum 0 B = true -> chk s3 12 bden 0 B = true ->
  defined_for_positive (ifd_template anum aden bnum bden f).
Proof.
  intros Hf L1 L2 L3 L4 A1 A2 B1 B2 x Hx.
  destruct (ifd_template_ok anum aden bnum bden f x L1 L2 L3 L4) as (y & E & S & G).
  exists y. split; [exact E|]. split; [exact S|]. intros idx Hi. rewrite G by auto.
  eapply (ifd_def s1 s2 s3 B); eauto.
Qed.
(* x^(-2/n) <= B for x >= 4 when B^n >= 1/16 *)
Lemma root_bound n (B : Q) x : (0 < n)%nat -> 0 < Q2R B -> 1 / 16 <= Q2R B ^ n -> 4 <= x ->
  0 < Rpower x (- 2 / INR n) <= Q2R B.
Proof.
  intros Hn HB HBn Hx. split; [apply exp_pos|]. set (z := Rpower x (- 2 / INR n)).
  assert (Z : 0 < z) by apply exp_pos.
  destruct (Rle_lt_dec z (Q2R B)) as [|L]; auto. exfalso.
  assert (P : Q2R B ^ n < z ^ n).
  { clearbody z. clear -Hn HB L. destruct n as [|n]; [lia|]. clear Hn. induction n as [|n IH]; [cbn; lra|].
    change (Q2R B * Q2R B ^ S n < z * z ^ S n). apply Rmult_gt_0_lt_compat; auto; try lra.
    apply pow_lt; lra. }
  assert (E : z ^ n = Rpower x (- 2)).
  { rewrite <- Rpower_pow by auto. unfold z. rewrite Rpower_mult. f_equal. field. apply not_0_INR. lia. }
  rewrite E, <- inv_sq in P by lra.
  assert (1 / (x * x) <= 1 / 16); [|lra]. unfold Rdiv. rewrite !Rmult_1_l. apply Rinv_le_contravar; nra.
Qed.
Theorem C78_inverses : defined_for_positive ifdm12 /\ defined_for_positive ifd12 /\
  defined_for_positive ifd32 /\ defined_for_positive ifd52.
Proof.
  repeat split.
  - apply (ifd_all_def false true true (1 # 16)); sides.
    intros x Hx. assert (0 < x * x) by nra. split; [apply Rdiv_lt_0_compat; lra|].
    replace (Q2R (1 # 16)) with (/ 16) by (unfold Q2R; cbn; lra). unfold Rdiv. rewrite Rmult_1_l.
    apply Rinv_le_contravar; nra.
  - apply (ifd_all_def true false false (2 # 5)); sides.
    intros x Hx. replace (- 2 / 3) with (- 2 / INR 3) by (cbn; lra).
    apply root_bound; [lia| | |exact Hx]; unfold Q2R; cbn [Qnum Qden pow]; lra.
  - apply (ifd_all_def true false false (23 # 40)); sides.
    intros x Hx. replace (- 2 / 5) with (- 2 / INR 5) by (cbn; lra).
    apply root_bound; [lia| | |exact Hx]; unfold Q2R; cbn [Qnum Qden pow]; lra.
  - apply (ifd_all_def true false false (27 # 40)); sides.
    intros x Hx. replace (- 2 / 7) with (- 2 / INR 7) by (cbn; lra).
    apply root_bound; [lia| | |exact Hx]; unfold Q2R; cbn [Qnum Qden pow]; lra.
Qed.
(* outside of the range of the integrals the inverses are not defined: at 0 none is *)
Theorem C78_inverse_zero : forall F, In F [ifdm12; ifd12; ifd32; ifd52] ->
  forall x y idx, F x = Ok y -> inb idx (shp x) -> get x idx = 0 -> get y idx = None.
Proof.
  intros F HF x y idx E Hi Z.
  assert (G : forall a b c d f, (2 <= length a)%nat -> (2 <= length b)%nat -> (2 <= length c)%nat -> (2 <= length d)%nat ->
     F = ifd_template a b c d f -> get y idx = None).
  { intros a b c d f L1 L2 L3 L4 ->. destruct (ifd_template_ok a b c d f x L1 L2 L3 L4) as (y' & E' & _ & G).
    rewrite E in E'. injection E' as <-. rewrite G, Z by auto. unfold ifd_elem.
    destruct (Rltb_spec 0 4); [|lra]. unfold odiv. destruct (Reqb_spec (horner (tab b) 0) 0); [reflexivity|].
    cbn [olog]. unfold Rdiv. rewrite !Rmult_0_l. destruct (Rltb_spec 0 0); [lra|reflexivity]. }
  destruct HF as [<-|[<-|[<-|[<-|[]]]]]; eapply G; try reflexivity; sides.
Qed.

(** ** Concrete cases *)
(* a 2 by 2 array with elements on both branches *)
Definition ex_x : nd R := Nd [2%nat; 2%nat] (fun idx => match idx with [i; j] => INR i * 3 + INR j | _ => 0 end).
Example ex_C77_shapes : exists y, fd12 ex_x = Ok y /\ shp y = [2%nat; 2%nat] /\
  get y [0%nat; 1%nat] = integral_value (1 / 2) fd12_anum fd12_aden fd12_bnum fd12_bden 1 /\
  get y [1%nat; 0%nat] = integral_value (1 / 2) fd12_anum fd12_aden fd12_bnum fd12_bden 3.
Proof.
  destruct C77_integrals as (_ & H & _). destruct (H ex_x) as (y & E & S & G). exists y.
  split; [exact E|]. split; [exact S|]. rewrite !G by (cbn; repeat constructor; lia). cbn. split; f_equal; lra.
Qed.
(* peval on rationals: 2 x^2 + 3 x + 5 at 0, 1, 2 *)
Example ex_C77_peval : peval [2; 3; 5]%Q [0; 1; 2]%Q = Ok [5; 10; 19]%Q.
Proof. vm_compute. reflexivity. Qed.
Example ex_C77_poly : poly [2; 3; 5] 2 = 19.
Proof. unfold poly. cbn. lra. Qed.
(* masks with both values, and an empty selection *)
Example ex_C77_mask : compress [true; false; true] [1; 2; 3]%Q = [1; 3]%Q /\
  scatter [true; false; true] [7; 8]%Q [1; 2; 3]%Q = Ok [7; 2; 8]%Q /\
  scatter [true; false] [7; 8]%Q [1; 2]%Q = Err ValueError /\
  scatter [true; true] [7]%Q [1; 2]%Q = Err ValueError.
Proof. repeat split. Qed.
(* an empty array and a 0-d array *)
Example ex_C77_empty : exists y, fdm12 (Nd [0%nat] (fun _ => 0)) = Ok y /\ shp y = [0%nat].
Proof. destruct C77_integrals as (H & _). destruct (H (Nd [0%nat] (fun _ => 0))) as (y & E & S & _). eauto. Qed.
Example ex_C78 : exists y v, fdm12 (Nd [] (fun _ => -1000)) = Ok y /\ shp y = [] /\ get y [] = Some v /\ 0 < v.
Proof.
  destruct C78_positive as (H & _). destruct (H (Nd [] (fun _ => -1000))) as (y & E & S & G).
  destruct (G [] ltac:(constructor)) as (v & Ev & Pv). eauto 6.
Qed.
(* the denominator of ifdm12 is near to 0 at the threshold, but not 0 *)
Example ex_C78_den : chk false 12 ifdm12_aden 0 4 = true /\ chk false 12 ifdm12_aden 0 (41 # 10) = true.
Proof. split; vm_compute; reflexivity. Qed.

Print Assumptions C77_integrals.
Print Assumptions C77_inverses.
Print Assumptions C78_positive.
Print Assumptions C78_inverses.
