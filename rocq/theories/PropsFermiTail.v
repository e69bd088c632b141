(* C92: the functions of fermi.py are the Fermi-Dirac integrals, for every real argument. *)
From Coq Require Import List Arith ZArith QArith Qreals Bool Lia Reals Lra.
From Coquelicot Require Import Coquelicot.
From Verif Require Import Num PyBase NdArray RSum PolySign PolyDer Fermi FermiProofs PropsFermi PropsFermiDer GaussInt FermiInt PropsFermiAcc FermiTail FermiOde FermiCert FermiRatio FermiPieces.
Import ListNotations.
Open Scope R_scope.

(** ** The certificates *)
Definition den : Z := (2 ^ 60)%Z.
Lemma den_pos : (0 < den)%Z. Proof. reflexivity. Qed.
Lemma pcsA_far : achk den 16 320 dqf (aresA dqf qaf) (2 * 320 - 1) = true.
Proof. vm_compute. reflexivity. Qed.
Lemma pcsA_chain : chainA 12 den 16 320 dqf qaf [] pcsA = true.
Proof. vm_compute. reflexivity. Qed.
Lemma pcsA_ok : List.Forall (okA den) pcsA.
Proof. exact (chainA_ok 12 den 16 320 dqf qaf pcsA pcsA_far [] (List.Forall_nil _) pcsA_chain). Qed.
Lemma pcsB_base : baseB 12 (den * 2 ^ 40) (2 ^ 40 * 30) serB = true.
Proof. vm_compute. reflexivity. Qed.
Lemma pcsB_chain : chainB 12 den (evZ 2 1 serB / 2 ^ 40) (2 * (2 ^ 40 * 30) / 2 ^ 40 + 2) [] pcsB = true.
Proof. vm_compute. reflexivity. Qed.
Lemma pcsB_ok : List.Forall (okB den) pcsB.
Proof.
  exact (chainB_ok 12 den _ _ pcsB (base_round den (2 ^ 40) _ _ _ den_pos eq_refl (baseB_ok _ _ _ _ pcsB_base)) [] (List.Forall_nil _) pcsB_chain).
Qed.
(* beyond 32 *)
Lemma farA_chk : achk den 700 32 dqn (aresA dqn qan) (2 * 32 - 1) = true.
Proof. vm_compute. reflexivity. Qed.
Lemma farB_chk : achk den 4800 32 dqn (aresB dqn qbn) (2 * 32 + 1) = true.
Proof. vm_compute. reflexivity. Qed.
Definition farB_start : bool :=
  match find 8 pcsB with
  | Some (e, c) => let w := (32 ^ Z.of_nat (S (length qbn)) * dqn)%Z in
      (Z.abs (psum c * w - evZ 1 32 qbn * den) + e * w <=? 4800 * w)%Z
  | None => false
  end.
Lemma farB_start_chk : farB_start = true.
Proof. vm_compute. reflexivity. Qed.
Lemma farB_start_ok d dq q e0 l : (0 < d)%Z -> (0 < dq)%Z -> List.Forall (okB d) l ->
  match find 8 l with
  | Some (e, c) => let w := (32 ^ Z.of_nat (S (length q)) * dq)%Z in (Z.abs (psum c * w - evZ 1 32 q * d) + e * w <=? e0 * w)%Z
  | None => false
  end = true -> Rabs (be 32 - afun dq q 32) <= IZR e0 / IZR d.
Proof.
  intros Hd Hq HF H. apply IZR_lt in Hd, Hq. destruct (find 8 l) as [[e c]|] eqn:Ef; [|discriminate].
  apply find_in in Ef. rewrite List.Forall_forall in HF. specialize (HF _ Ef). cbn [okB] in HF. destruct HF as [_ HF].
  specialize (HF 32 ltac:(lra)). unfold pfun in HF. replace (32 / (2 * 8) - 1) with 1 in HF by lra. rewrite ev_1 in HF. fold (psum c) in HF.
  eapply dist_tri; [exact HF|]. clear HF Ef. unfold afun.
  cbv zeta in H. apply Z.leb_le, IZR_le in H. rewrite plus_IZR, abs_IZR, minus_IZR, !mult_IZR, evZ_ok, <- pow_IZR in H by lia.
  replace (1 / 32) with (/ 32) in H by lra. cbn [pow] in H.
  pose proof (pow_lt 32 (length q) ltac:(lra)) as P. set (p := 32 ^ length q) in *. clearbody p. set (v := ev q (/ 32)) in *. clearbody v.
  set (c0 := IZR (psum c)) in *. clearbody c0.
  assert (W : 0 < 32 * p * IZR dq * IZR d) by (repeat apply Rmult_lt_0_compat; lra).
  apply Rmult_le_reg_l with (32 * p * IZR dq * IZR d); [exact W|].
  rewrite Rmult_plus_distr_l. rewrite <- (Rabs_right (32 * p * IZR dq * IZR d)) at 1 by lra. rewrite <- Rabs_mult.
  replace (32 * p * IZR dq * IZR d * (c0 / IZR d - / 32 * v / IZR dq)) with (c0 * (32 * p * IZR dq) - p * v * IZR d) by (field; lra).
  replace (32 * p * IZR dq * IZR d * (IZR e / IZR d)) with (IZR e * (32 * p * IZR dq)) by (field; lra).
  replace (32 * p * IZR dq * IZR d * (IZR e0 / IZR d)) with (IZR e0 * (32 * p * IZR dq)) by (field; lra). exact H.
Qed.
Lemma far_ok t : IZR 32 <= t -> Rabs (al t - afun dqn qan t) + Rabs (be t - afun dqn qbn t) <= IZR 5500 / IZR den.
Proof.
  intros Ht. pose proof (aresA_ok _ _ _ _ _ farA_chk t Ht) as B1.
  pose proof (aresB_ok _ _ _ _ _ farB_chk (farB_start_ok den dqn qbn 4800 pcsB den_pos eq_refl pcsB_ok farB_start_chk) t Ht) as B2.
  assert (D : 0 < IZR den) by (apply IZR_lt, den_pos). set (dn := IZR den) in *. clearbody dn.
  eapply Rle_trans; [apply Rplus_le_compat; [exact B1|exact B2]|]. right. field. lra.
Qed.

(** ** The second pair of tables as polynomials *)
(* in x^2, and in 1/x^2; sg is the sign of both *)
Definition tabX (sg : Z) (bn bd : list Q) : list Z * list Z :=
  let n := intable bn in let d := intable bd in let M := Nat.max (length n) (length d) in
  (pscale (sg * common bd) (repeat 0%Z (M - length n) ++ rev n), pscale (sg * common bn) (repeat 0%Z (M - length d) ++ rev d)).
Definition tabZ (sg : Z) (bn bd : list Q) : list Z * list Z :=
  (pscale (sg * common bd) (intable bn), pscale (sg * common bn) (intable bd)).
Lemma pad_rev M c X : X <> 0 -> (length c <= M)%nat -> X * ev (repeat 0%Z (M - length c) ++ rev c) X = X ^ M * ev c (/ X).
Proof.
  intros HX L. rewrite ev_zeros. replace (X * (X ^ (M - length c) * ev (rev c) X)) with (X ^ (M - length c) * (X * ev (rev c) X)) by ring.
  rewrite <- ev_rev by exact HX. rewrite <- Rmult_assoc, <- pow_add. do 2 f_equal. lia.
Qed.
Lemma tabX_ok sg bn bd X : intable_ok bn = true -> intable_ok bd = true -> IZR sg <> 0 -> 0 < X -> hornerQ bd (/ X) <> 0 ->
  ev (fst (tabX sg bn bd)) X / ev (snd (tabX sg bn bd)) X = hornerQ bn (/ X) / hornerQ bd (/ X).
Proof.
  intros I1 I2 Hs HX Hd. unfold tabX. cbn [fst snd]. rewrite !ev_pscale, !mult_IZR.
  set (M := Nat.max _ _). assert (L1 : (length (intable bn) <= M)%nat) by (unfold M; lia). assert (L2 : (length (intable bd) <= M)%nat) by (unfold M; lia).
  clearbody M. pose proof (pad_rev M _ X ltac:(lra) L1) as E1. pose proof (pad_rev M _ X ltac:(lra) L2) as E2.
  set (a := ev (_ ++ rev (intable bn)) X) in *. set (b := ev (_ ++ rev (intable bd)) X) in *. clearbody a b.
  rewrite intable_ev in E1, E2 by assumption.
  assert (Cn : 0 < IZR (common bn)) by (apply IZR_lt; reflexivity). assert (Cd : 0 < IZR (common bd)) by (apply IZR_lt; reflexivity).
  set (cn := IZR (common bn)) in *. set (cd := IZR (common bd)) in *. clearbody cn cd. set (hn := hornerQ bn _) in *. set (hd := hornerQ bd _) in *. clearbody hn hd.
  pose proof (pow_lt X M HX) as P. set (q := X ^ M) in *. clearbody q.
  assert (Ea : a = q * (cn * hn) / X) by (rewrite <- E1; field; lra). assert (Eb : b = q * (cd * hd) / X) by (rewrite <- E2; field; lra).
  rewrite Ea, Eb. field. repeat split; lra.
Qed.
Lemma tabZ_ok sg bn bd z : intable_ok bn = true -> intable_ok bd = true -> IZR sg <> 0 -> hornerQ bd z <> 0 ->
  ev (fst (tabZ sg bn bd)) z / ev (snd (tabZ sg bn bd)) z = hornerQ bn z / hornerQ bd z.
Proof.
  intros I1 I2 Hs Hd. unfold tabZ. cbn [fst snd]. rewrite !ev_pscale, !mult_IZR, !intable_ev by assumption.
  assert (Cn : 0 < IZR (common bn)) by (apply IZR_lt; reflexivity). assert (Cd : 0 < IZR (common bd)) by (apply IZR_lt; reflexivity).
  field. repeat split; lra.
Qed.

(** ** Above 2 *)
Definition lcm18 : Z := 12252240.
Definition wts : list Z := removelast (dcoef (cheb 18)).
Definition S18 : Z := 30122754096401.
Lemma wts_ok : dcoef (cheb 18) = wts ++ [0%Z].
Proof. vm_compute. reflexivity. Qed.
Lemma S18_ok : ev (cheb 18) 1 = IZR S18.
Proof. rewrite ev_1. f_equal. Qed.
Definition regs (k : nat) (d L L' hn hd S1 dq ee : Z) (r : list Z) (A B : list entry) (qa qb : list Z) (X Z : list Z * list Z) : bool :=
  regA 20 k d 1 L hn hd S1 r A B (fst X) (snd X) && regA 20 k d 2 L hn hd S1 r A B (fst X) (snd X) &&
  regA 20 k d 4 L hn hd S1 r A B (fst X) (snd X) && regA 20 k d 8 L hn hd S1 r A B (fst X) (snd X) &&
  regB 20 k d L' hn hd S1 32 dq ee r qa qb (fst Z) (snd Z).
(* g is the integral of order j up to a relative error of eps, for every argument at least a *)
Definition is_FD_above (g : R -> R) (j a eps : R) : Prop :=
  forall x, a <= x -> exists l, FD_integral j x l /\ 0 < l /\ Rabs (g x - l) <= eps * l.
Lemma regs_ok k d L L' hn hd S1 dq ee r PA PB qa qb an ad bn bd sg eps s s' : tables_ok s' an ad bn bd = true -> (k <= 3)%nat -> IZR sg <> 0 ->
  (0 <= hn)%Z -> (hn < hd)%Z -> (0 < S1)%Z -> IZR S1 * IZR hn + IZR hd <= eps * (IZR S1 * (IZR hd - IZR hn)) ->
  List.Forall (okA d) PA -> List.Forall (okB d) PB ->
  (forall t, IZR 32 <= t -> Rabs (al t - afun dq qa t) + Rabs (be t - afun dq qb t) <= IZR ee / IZR d) ->
  dcoef s = r ++ [0%Z] -> ev s 1 = IZR S1 -> (forall y, 0 <= y <= 1 -> Rabs (ev s (- y)) <= 1) ->
  regs k d L L' hn hd S1 dq ee r PA PB qa qb (tabX sg bn bd) (tabZ sg bn bd) = true ->
  is_FD_above (fd_fun k an ad bn bd) (INR k - 1 / 2) 2 eps.
Proof.
  intros T Hk Hsg Hn Hnd HS Heps FA FB Far Er Es Hs H x Hx. destruct (tables_facts _ _ _ _ _ T) as (_ & _ & _ & _ & _ & _ & T1 & T2 & _ & _ & I1 & I2). clear T.
  specialize (T1 x Hx). specialize (T2 x Hx).
  unfold fd_fun. destruct (Rlt_dec x 2) as [N|_]; [lra|]. unfold hi_fun.
  assert (Hd0 : (0 < hd)%Z) by lia. apply IZR_le in Hn. apply IZR_lt in Hnd, Hd0.
  set (q := hornerQ bn (1 / (x * x)) / hornerQ bd (1 / (x * x))) in *.
  assert (Eix : 1 / (x * x) = / (x * x)) by (field; lra).
  assert (B : Rabs (IZR S1 * (x ^ k * q) - tl k S1 r x) <= IZR hn / IZR hd * (IZR S1 * (x ^ k * q))).
  { unfold regs in H. destruct (tabX sg bn bd) as [NX DX] eqn:EX. destruct (tabZ sg bn bd) as [NZ DZ] eqn:EZ. cbn [fst snd] in H.
    apply andb_true_iff in H. destruct H as [H H5]. apply andb_true_iff in H. destruct H as [H H4].
    apply andb_true_iff in H. destruct H as [H H3]. apply andb_true_iff in H. destruct H as [H1 H2].
    assert (QX : x ^ k * ev NX (x * x) / ev DX (x * x) = x ^ k * q).
    { unfold q. unfold Rdiv at 1. rewrite Rmult_assoc. f_equal. rewrite Eix in *.
      pose proof (tabX_ok sg bn bd (x * x) I1 I2 Hsg ltac:(nra) T1) as E. rewrite EX in E. cbn [fst snd] in E. exact E. }
    destruct (Rle_dec x 4) as [L4|N4]; [|destruct (Rle_dec x 8) as [L8|N8]; [|destruct (Rle_dec x 16) as [L16|N16]; [|destruct (Rle_dec x 32) as [L32|N32]]]].
    - rewrite <- QX. apply (regA_ok _ _ _ _ _ _ _ _ _ _ _ _ _ H1 FA FB x). lra.
    - rewrite <- QX. apply (regA_ok _ _ _ _ _ _ _ _ _ _ _ _ _ H2 FA FB x). lra.
    - rewrite <- QX. apply (regA_ok _ _ _ _ _ _ _ _ _ _ _ _ _ H3 FA FB x). lra.
    - rewrite <- QX. apply (regA_ok _ _ _ _ _ _ _ _ _ _ _ _ _ H4 FA FB x). lra.
    - pose proof (tabZ_ok sg bn bd (1 / (x * x)) I1 I2 Hsg T1) as E. rewrite EZ in E. cbn [fst snd] in E. unfold q. rewrite <- E.
      apply (regB_ok _ _ _ _ _ _ _ _ _ _ _ _ _ _ _ Hk H5 Far x). lra. }
  clear H T1 Eix. destruct (hint_lim k x) as (l & Ll & _). exists l. split; [now apply FD_of_hint|].
  pose proof (tl_ok k S1 s r x l Er Hk ltac:(lra) Hs Es Ll) as BT.
  apply IZR_lt in HS. set (S := IZR S1) in *. clearbody S.
  assert (Sx : 0 < sqrt x) by (apply sqrt_lt_R0; lra). pose proof (pow_lt x k ltac:(lra)) as Px.
  assert (U : 0 < x ^ k * q) by (apply Rmult_lt_0_compat; auto). 
  replace (sqrt x * x ^ k * hornerQ bn (1 / (x * x)) / hornerQ bd (1 / (x * x))) with (sqrt x * (x ^ k * q)) by (unfold q, Rdiv; ring).
  set (u := x ^ k * q) in *. clearbody u. clear q T2.
  set (v := tl k S1 r x) in *. clearbody v.
  assert (V : 0 < v).
  { assert (F : IZR hn / IZR hd < 1) by (apply Rmult_lt_reg_r with (IZR hd); [lra|]; unfold Rdiv; rewrite Rmult_assoc, Rinv_l by lra; lra).
    assert (W : 0 < S * u) by (now apply Rmult_lt_0_compat). apply Rabs_le_between in B. nra. }
  assert (Pl : 0 < l).
  { assert (W : 0 < sqrt x * v) by (now apply Rmult_lt_0_compat). apply Rabs_le_between in BT. nra. }
  split; [exact Pl|]. apply (tail_final S u v l (sqrt x) (IZR hn) (IZR hd) eps); auto.
Qed.
Notation chk_reg k sg hn hd bn bd :=
  (regs k den (lcm18 ^ Z.of_nat (Nat.max k 2)) (lcm18 ^ Z.of_nat (k + 33)) hn hd S18 dqn 5500 wts pcsA pcsB qan qbn (tabX sg bn bd) (tabZ sg bn bd)) (only parsing).
Lemma fd_above s' k an ad bn bd sg hn hd eps : tables_ok s' an ad bn bd = true -> (k <= 3)%nat -> IZR sg <> 0 ->
  (0 <= hn)%Z -> (hn < hd)%Z -> IZR S18 * IZR hn + IZR hd <= eps * (IZR S18 * (IZR hd - IZR hn)) ->
  chk_reg k sg hn hd bn bd = true -> is_FD_above (fd_fun k an ad bn bd) (INR k - 1 / 2) 2 eps.
Proof.
  intros T Hk Hsg Hn Hnd Heps H.
  exact (regs_ok k den _ _ hn hd S18 dqn 5500 wts pcsA pcsB qan qbn an ad bn bd sg eps (cheb 18) s' T Hk Hsg Hn Hnd eq_refl Heps
    pcsA_ok pcsB_ok far_ok wts_ok S18_ok (cheb_bound 18) H).
Qed.
Lemma chk_m12 : chk_reg 0 (-1) 29 (10 ^ 13) fdm12_bnum fdm12_bden = true.
Proof. vm_compute. reflexivity. Qed.
Lemma chk_12 : chk_reg 1 1 9 (10 ^ 13) fd12_bnum fd12_bden = true.
Proof. vm_compute. reflexivity. Qed.
Lemma chk_32 : chk_reg 2 1 9 (10 ^ 13) fd32_bnum fd32_bden = true.
Proof. vm_compute. reflexivity. Qed.
Lemma chk_52 : chk_reg 3 1 9 (10 ^ 13) fd52_bnum fd52_bden = true.
Proof. vm_compute. reflexivity. Qed.

(** ** C92 *)
(* g is the integral of order j up to a relative error of eps *)
Definition is_FD (g : R -> R) (j eps : R) : Prop :=
  forall x, exists l, FD_integral j x l /\ 0 < l /\ Rabs (g x - l) <= eps * l.
Lemma is_FD_join g j e1 e2 eps : is_FD_below g j 2 e1 -> is_FD_above g j 2 e2 -> e1 <= eps -> e2 <= eps -> is_FD g j eps.
Proof.
  intros H1 H2 L1 L2 x. destruct (Rlt_dec x 2) as [Hx|Hx].
  - destruct (H1 x Hx) as (l & A & B & C). exists l. repeat split; auto. eapply Rle_trans; [exact C|]. apply Rmult_le_compat_r; lra.
  - destruct (H2 x ltac:(lra)) as (l & A & B & C). exists l. repeat split; auto. eapply Rle_trans; [exact C|]. apply Rmult_le_compat_r; lra.
Qed.
Lemma above_m12 : is_FD_above gm12 (- (1 / 2)) 2 (3 / 10 ^ 12).
Proof.
  replace (- (1 / 2)) with (INR 0 - 1 / 2) by (cbn; lra).
  apply (fd_above false 0 _ _ _ _ (-1) 29 (10 ^ 13) (3 / 10 ^ 12) tabs_m12); [lia|lra|lia|reflexivity| |exact chk_m12].
  unfold S18. change (10 ^ 13)%Z with 10000000000000%Z. lra.
Qed.
Lemma above_12 : is_FD_above g12 (1 / 2) 2 (1 / 10 ^ 12).
Proof.
  replace (1 / 2) with (INR 1 - 1 / 2) by (cbn; lra).
  apply (fd_above true 1 _ _ _ _ 1 9 (10 ^ 13) (1 / 10 ^ 12) tabs_12); [lia|lra|lia|reflexivity| |exact chk_12].
  unfold S18. change (10 ^ 13)%Z with 10000000000000%Z. lra.
Qed.
Lemma above_32 : is_FD_above g32 (3 / 2) 2 (1 / 10 ^ 12).
Proof.
  replace (3 / 2) with (INR 2 - 1 / 2) by (cbn; lra).
  apply (fd_above true 2 _ _ _ _ 1 9 (10 ^ 13) (1 / 10 ^ 12) tabs_32); [lia|lra|lia|reflexivity| |exact chk_32].
  unfold S18. change (10 ^ 13)%Z with 10000000000000%Z. lra.
Qed.
Lemma above_52 : is_FD_above g52 (5 / 2) 2 (1 / 10 ^ 12).
Proof.
  replace (5 / 2) with (INR 3 - 1 / 2) by (cbn; lra).
  apply (fd_above true 3 _ _ _ _ 1 9 (10 ^ 13) (1 / 10 ^ 12) tabs_52); [lia|lra|lia|reflexivity| |exact chk_52].
  unfold S18. change (10 ^ 13)%Z with 10000000000000%Z. lra.
Qed.
Theorem C92_integrals : exists gm12 g12 g32 g52 : R -> R,
  elementwise fdm12 (fun x => Some (gm12 x)) /\ elementwise fd12 (fun x => Some (g12 x)) /\
  elementwise fd32 (fun x => Some (g32 x)) /\ elementwise fd52 (fun x => Some (g52 x)) /\
  is_FD gm12 (- (1 / 2)) (3 / 10 ^ 12) /\ is_FD g12 (1 / 2) (1 / 10 ^ 12) /\
  is_FD g32 (3 / 2) (1 / 10 ^ 12) /\ is_FD g52 (5 / 2) (1 / 10 ^ 12).
Proof.
  exists gm12, g12, g32, g52.
  split; [exact elt_m12|]. split; [exact elt_12|]. split; [exact elt_32|]. split; [exact elt_52|].
  split; [eapply is_FD_join; [exact below_m12|exact above_m12|lra|lra]|].
  split; [eapply is_FD_join; [exact below_12|exact above_12|lra|lra]|].
  split; [eapply is_FD_join; [exact below_32|exact above_32|lra|lra]|].
  eapply is_FD_join; [exact below_52|exact above_52|lra|lra].
Qed.
Print Assumptions C92_integrals.
(* the bound 3e-12 for the order -1/2 cannot be replaced by 1e-12: at x = 32 the error is more than 2.5e-12 *)
Lemma chk_sharp : regP 0 den 8 (lcm18 ^ 2) 26 (10 ^ 13) S18 wts pcsA pcsB (fst (tabX (-1) fdm12_bnum fdm12_bden)) (snd (tabX (-1) fdm12_bnum fdm12_bden)) = true.
Proof. vm_compute. reflexivity. Qed.
Lemma sharp_core S1 s u v l a e : 0 < S1 -> 0 < s -> 0 < u -> 0 < l -> a * (S1 * u) <= Rabs (S1 * u - v) -> Rabs (S1 * l - s * v) <= l -> 0 < a < 1 ->
  e * (1 + a) < a - 1 / S1 -> 0 <= e -> e * l < Rabs (s * u - l).
Proof.
  intros HS Hs Hu Hl B1 B2 Ha He He0.
  assert (B3 : a * (S1 * (s * u)) <= Rabs (S1 * (s * u) - s * v)).
  { replace (S1 * (s * u) - s * v) with (s * (S1 * u - v)) by ring. rewrite Rabs_mult, (Rabs_right s) by lra.
    replace (a * (S1 * (s * u))) with (s * (a * (S1 * u))) by ring. apply Rmult_le_compat_l; lra. }
  assert (G0 : 0 < s * u) by (now apply Rmult_lt_0_compat). set (g := s * u) in *. clearbody g. set (w := s * v) in *. clearbody w. clear B1.
  assert (B4 : a * (S1 * g) <= S1 * Rabs (g - l) + l).
  { replace (S1 * g - w) with (S1 * (g - l) + (S1 * l - w)) in B3 by ring.
    pose proof (Rabs_triang (S1 * (g - l)) (S1 * l - w)) as T. rewrite Rabs_mult, (Rabs_right S1) in T by lra. lra. }
  assert (G : l - Rabs (g - l) <= g) by (rewrite Rabs_minus_sym; pose proof (Rle_abs (l - g)); lra).
  set (D := Rabs (g - l)) in *. assert (D0 : 0 <= D) by apply Rabs_pos. clearbody D.
  assert (B5 : a * g <= D + / S1 * l).
  { apply Rmult_le_reg_l with S1; [exact HS|]. replace (S1 * (D + / S1 * l)) with (S1 * D + l) by (field; lra). lra. }
  assert (B6 : a * (l - D) <= a * g) by (apply Rmult_le_compat_l; lra).
  assert (B7 : (a - / S1) * l <= (1 + a) * D) by lra. unfold Rdiv in He. rewrite Rmult_1_l in He.
  apply Rmult_lt_reg_l with (1 + a); [lra|]. eapply Rlt_le_trans; [|exact B7].
  replace ((1 + a) * (e * l)) with (e * (1 + a) * l) by ring. apply Rmult_lt_compat_r; lra.
Qed.
Theorem C92_m12_sharp : exists l, FD_integral (- (1 / 2)) 32 l /\ 0 < l /\ 2.5 / 10 ^ 12 * l < Rabs (gm12 32 - l).
Proof.
  destruct (hint_lim 0 32) as (l & Ll & _). exists l.
  assert (FD : FD_integral (- (1 / 2)) 32 l) by (replace (- (1 / 2)) with (INR 0 - 1 / 2) by (cbn; lra); now apply FD_of_hint).
  split; [exact FD|]. destruct (above_m12 32 ltac:(lra)) as (l' & FD' & Pl & _).
  rewrite (FD_unique _ _ _ _ FD' FD) in Pl. split; [exact Pl|]. clear l' FD' FD.
  pose proof (tl_ok 0 S18 (cheb 18) wts 32 l wts_ok ltac:(lia) ltac:(lra) (cheb_bound 18) S18_ok Ll) as BT.
  pose proof (regP_ok 0 den 8 _ 26 (10 ^ 13) S18 wts pcsA pcsB _ _ chk_sharp pcsA_ok pcsB_ok) as BP. cbv zeta in BP.
  replace (4 * 8) with 32 in BP by lra.
  destruct (tables_facts _ _ _ _ _ tabs_m12) as (_ & _ & _ & _ & _ & _ & T1 & T2 & _ & _ & I1 & I2).
  specialize (T1 32 ltac:(lra)). specialize (T2 32 ltac:(lra)). replace (1 / (32 * 32)) with (/ (32 * 32)) in T1, T2 by lra.
  pose proof (tabX_ok (-1) _ _ (32 * 32) I1 I2 ltac:(lra) ltac:(lra) T1) as E.
  unfold gm12, fd_fun. destruct (Rlt_dec 32 2) as [N|_]; [lra|]. unfold hi_fun. replace (1 / (32 * 32)) with (/ (32 * 32)) by lra.
  set (q := hornerQ fdm12_bnum (/ (32 * 32)) / hornerQ fdm12_bden (/ (32 * 32))) in *.
  replace (sqrt 32 * 32 ^ 0 * hornerQ fdm12_bnum (/ (32 * 32)) / hornerQ fdm12_bden (/ (32 * 32))) with (sqrt 32 * q) by (unfold q, Rdiv; cbn [pow]; ring).
  replace (32 ^ 0 * ev (fst (tabX (-1) fdm12_bnum fdm12_bden)) (32 * 32) / ev (snd (tabX (-1) fdm12_bnum fdm12_bden)) (32 * 32)) with q in BP
    by (rewrite <- E; cbn [pow]; unfold Rdiv; ring).
  clear E I1 I2 T1. clearbody q. set (v := tl 0 S18 wts 32) in *. clearbody v.
  apply (sharp_core (IZR S18) (sqrt 32) q v l (IZR 26 / IZR (10 ^ 13)) (2.5 / 10 ^ 12)); auto.
  - apply IZR_lt. reflexivity.
  - apply sqrt_lt_R0. lra.
  - change (10 ^ 13)%Z with 10000000000000%Z. lra.
  - change (10 ^ 13)%Z with 10000000000000%Z. unfold S18. lra.
  - lra.
Qed.
Print Assumptions C92_m12_sharp.
(* x = 4: the integral of sqrt t / (exp (t - 4) + 1) is 5.7707265276069... *)
Example ex_C92_above : exists l, FD_integral (1 / 2) 4 l /\ Rabs (l - 5.7707265276069) <= 1 / 10 ^ 11.
Proof.
  destruct (above_12 4 ltac:(lra)) as (l & L & Pl & Bl). exists l. split; [exact L|].
  unfold g12, fd_fun in Bl. destruct (Rlt_dec 4 2) as [N|_]; [lra|].
  unfold hi_fun in Bl. replace (sqrt 4) with 2 in Bl by (replace 4 with (2 * 2) by ring; rewrite sqrt_square; lra).
  unfold hornerQ, fd12_bnum, fd12_bden, Q2R in Bl. cbn [fold_left] in Bl.
  repeat match type of Bl with
    | context [Qnum ?q] => let v := eval vm_compute in (Qnum q) in change (Qnum q) with v in Bl
    | context [Qden ?q] => let v := eval vm_compute in (Qden q) in change (Qden q) with v in Bl
    end.
  match type of Bl with Rabs (?p / ?d - _) <= _ =>
    assert (B : Rabs (p / d - 5.7707265276069) <= 1 / 10 ^ 12) by (apply quot_near; lra); set (w := p / d) in * end.
  clearbody w. clear - B Bl Pl. apply Rabs_le. unfold Rabs in B, Bl.
  destruct (Rcase_abs _) in B; destruct (Rcase_abs _) in Bl; lra.
Qed.
Print Assumptions ex_C92_above.
