(* Sums of al and be with the weights of FD_tail, and the comparison with a quotient of polynomials. *)
From Coq Require Import List Arith ZArith QArith Qreals Bool Lia Reals Lra.
From Coquelicot Require Import Coquelicot.
From Verif Require Import PolySign PolyDer GaussInt FermiInt FermiTail FermiOde FermiCert.
Import ListNotations.
Open Scope R_scope.

(** ** The tail in terms of al and be *)
Fixpoint Sg (sg : R) (j : nat) (x : R) (r : list Z) (i : nat) : R :=
  match r with [] => 0 | a :: r' => IZR a * ((al (INR i * x) + sg * be (INR i * x)) / INR i ^ j) + Sg sg j x r' (S i) end.
Fixpoint Z2 (r : list Z) (i : nat) : R := match r with [] => 0 | a :: r' => IZR a / INR i ^ 2 + Z2 r' (S i) end.
(* c0 T / sqrt x = c1 S1 x^k + z Z2 x^(k-2) + c2 Sg, with the sign sg *)
Record kdat := { kc0 : Z; kc1 : Z; kz : Z; kc2 : Z; ksg : Z }.
Definition kd (k : nat) : kdat :=
  match k with
  | O => {| kc0 := 1; kc1 := 2; kz := 0; kc2 := 1; ksg := -1 |}
  | 1%nat => {| kc0 := 6; kc1 := 4; kz := 0; kc2 := 3; ksg := 1 |}
  | 2%nat => {| kc0 := 20; kc1 := 8; kz := 60; kc2 := 15; ksg := -1 |}
  | _ => {| kc0 := 56; kc1 := 16; kz := 280; kc2 := 105; ksg := 1 |}
  end.
Lemma Gs_kd k x r : (k <= 3)%nat -> 0 < x -> forall i, (0 < i)%nat ->
  IZR (kc0 (kd k)) * Gs k x r i = sqrt x * (IZR (kz (kd k)) * x ^ (k - 2) * Z2 r i + IZR (kc2 (kd k)) * Sg (IZR (ksg (kd k))) k x r i).
Proof.
  intros Hk Hx. induction r as [|a r IH]; intros i Hi; cbn [Gs Sg Z2]; [ring|].
  rewrite Rmult_plus_distr_l, (IH (S i)) by lia. 
  assert (N : 0 < INR i) by (now apply lt_0_INR).
  pose proof (Ak_0 (INR i) x N ltac:(lra)) as A0. pose proof (Bk_0 (INR i) x N ltac:(lra)) as B0.
  pose proof (Ak_S 0 (INR i) x N ltac:(lra)) as A1. pose proof (Bk_S 0 (INR i) x N ltac:(lra)) as B1.
  pose proof (Ak_S 1 (INR i) x N ltac:(lra)) as A2. pose proof (Bk_S 1 (INR i) x N ltac:(lra)) as B2.
  pose proof (Ak_S 2 (INR i) x N ltac:(lra)) as A3. pose proof (Bk_S 2 (INR i) x N ltac:(lra)) as B3.
  rewrite A0 in A1. rewrite B0 in B1. set (n := INR i) in *. clearbody n.
  set (s := sqrt x) in *. clearbody s. set (p := al (n * x)) in *. set (q := be (n * x)) in *. clearbody p q.
  cbn [INR pow] in A1, A2, A3, B1, B2, B3.
  assert (E1 : Ak 1 n x = (1 / 2 * (s * p) + s) / n) by (apply Rmult_eq_reg_l with n; [rewrite A1; field; lra|lra]).
  assert (F1 : Bk 1 n x = (s - 1 / 2 * (s * q)) / n) by (apply Rmult_eq_reg_l with n; [rewrite B1; field; lra|lra]).
  rewrite E1 in A2. rewrite F1 in B2.
  assert (E2 : Ak 2 n x = (3 / 2 * ((1 / 2 * (s * p) + s) / n) + s * x) / n) by (apply Rmult_eq_reg_l with n; [rewrite A2; field; lra|lra]).
  assert (F2 : Bk 2 n x = (s * x - 3 / 2 * ((s - 1 / 2 * (s * q)) / n)) / n) by (apply Rmult_eq_reg_l with n; [rewrite B2; field; lra|lra]).
  rewrite E2 in A3. rewrite F2 in B3.
  assert (E3 : Ak 3 n x = (5 / 2 * ((3 / 2 * ((1 / 2 * (s * p) + s) / n) + s * x) / n) + s * x * x) / n) by (apply Rmult_eq_reg_l with n; [rewrite A3; field; lra|lra]).
  assert (F3 : Bk 3 n x = (s * x * x - 5 / 2 * ((s * x - 3 / 2 * ((s - 1 / 2 * (s * q)) / n)) / n)) / n) by (apply Rmult_eq_reg_l with n; [rewrite B3; field; lra|lra]).
  destruct k as [|[|[|[|k]]]]; [| | | |lia]; cbn [kd kc0 kc1 kz kc2 ksg Nat.sub pow].
  - rewrite A0, B0. field. lra.
  - rewrite E1, F1. field. lra.
  - rewrite E2, F2. field. lra.
  - rewrite E3, F3. field. lra.
Qed.
(* T / sqrt x *)
Definition tl (k : nat) (S1 : Z) (r : list Z) (x : R) : R :=
  (IZR (kc1 (kd k)) * IZR S1 * x ^ k + IZR (kz (kd k)) * x ^ (k - 2) * Z2 r 1 + IZR (kc2 (kd k)) * Sg (IZR (ksg (kd k))) k x r 1) / IZR (kc0 (kd k)).
Lemma Gs_app0 k x r : forall i, Gs k x (r ++ [0%Z]) i = Gs k x r i.
Proof. induction r as [|a r IH]; intros i; cbn [app Gs]; [ring|]. now rewrite IH. Qed.
Lemma tl_ok k S1 s r (x l : R) : dcoef s = r ++ [0%Z] -> (k <= 3)%nat -> 0 < x -> (forall y, 0 <= y <= 1 -> Rabs (ev s (- y)) <= 1) -> ev s 1 = IZR S1 ->
  is_lim (hint k x) p_infty l -> Rabs (IZR S1 * l - sqrt x * tl k S1 r x) <= l.
Proof.
  intros Er Hk Hx Hs E L. pose proof (FD_tail k x s l Hs ltac:(lra) L) as B. rewrite E, Er, Gs_app0 in B.
  replace (sqrt x * tl k S1 r x) with (IZR S1 * (2 / INR (2 * k + 1) * (sqrt x * x ^ k)) + Gs k x r 1); [exact B|].
  assert (K : 0 < IZR (kc0 (kd k))) by (apply IZR_lt; destruct k as [|[|[|k]]]; reflexivity).
  apply Rmult_eq_reg_l with (IZR (kc0 (kd k))); [|lra]. rewrite Rmult_plus_distr_l, Gs_kd by (auto; lia). unfold tl.
  assert (C : IZR (kc0 (kd k)) * 2 = IZR (kc1 (kd k)) * INR (2 * k + 1)).
  { destruct k as [|[|[|[|k]]]]; [| | | |lia]; cbn; lra. }
  assert (N : 0 < INR (2 * k + 1)) by (apply lt_0_INR; lia).
  replace (IZR (kc0 (kd k)) * (IZR S1 * (2 / INR (2 * k + 1) * (sqrt x * x ^ k)))) with (IZR (kc0 (kd k)) * 2 / INR (2 * k + 1) * (IZR S1 * (sqrt x * x ^ k))) by (field; lra).
  rewrite C. field. lra.
Qed.

(** ** Sums of pieces *)
Definition divides (a L : Z) : bool := (0 <? a)%Z && (L mod a =? 0)%Z.
Lemma divides_ok a L : divides a L = true -> 0 < IZR a /\ IZR L = IZR a * IZR (L / a).
Proof.
  unfold divides. intros H. apply andb_true_iff in H. destruct H as [H1 H2]. apply Z.ltb_lt in H1. apply Z.eqb_eq in H2.
  split; [now apply IZR_lt|]. rewrite <- mult_IZR. f_equal. apply Z.div_exact; lia.
Qed.
Lemma IZR_pow_nat i (j : nat) : IZR (Z.of_nat i ^ Z.of_nat j) = INR i ^ j.
Proof. rewrite <- pow_IZR, <- INR_IZR_INZ. reflexivity. Qed.
Fixpoint zsum (L : Z) (r : list Z) (i : nat) : option Z :=
  match r with
  | [] => Some 0%Z
  | a :: r' => if divides (Z.of_nat i ^ 2) L then match zsum L r' (S i) with Some s => Some (a * (L / Z.of_nat i ^ 2) + s)%Z | None => None end else None
  end.
Lemma zsum_ok L r : forall i s, zsum L r i = Some s -> IZR L * Z2 r i = IZR s.
Proof.
  induction r as [|a r IH]; intros i s H; cbn [zsum Z2] in *; [injection H as <-; ring|].
  destruct (divides _ L) eqn:D; [|discriminate]. destruct (zsum L r (S i)) as [s'|] eqn:E; [|discriminate].
  assert (Es : s = (a * (L / Z.of_nat i ^ 2) + s')%Z) by congruence. subst s. clear H.
  apply divides_ok in D. set (W := (L / Z.of_nat i ^ 2)%Z) in *. clearbody W. pose proof (IZR_pow_nat i 2) as IP. change (Z.of_nat 2) with 2%Z in IP. rewrite IP in D. destruct D as [D1 D2].
  rewrite Rmult_plus_distr_l, (IH _ _ E), plus_IZR, mult_IZR, D2. field. intros N. rewrite N in D1. cbn in D1. lra.
Qed.
Fixpoint wsum (sg : Z) (j : nat) (c L : Z) (A B : list entry) (r : list Z) (i : nat) : option (list Z * Z) :=
  match r with
  | [] => Some ([], 0%Z)
  | a :: r' =>
      match find (Z.of_nat i * c) A, find (Z.of_nat i * c) B, wsum sg j c L A B r' (S i) with
      | Some (ea, ca), Some (eb, cb), Some (p, E) =>
          if divides (Z.of_nat i ^ Z.of_nat j) L
          then let w := (a * (L / Z.of_nat i ^ Z.of_nat j))%Z in
            Some (padd (pscale w (padd ca (pscale sg cb))) p, (Z.abs w * (ea + eb) + E)%Z)
          else None
      | _, _, _ => None
      end
  end.
Lemma wsum_ok sg j c L d A B x t : (sg = 1 \/ sg = -1)%Z -> (0 < d)%Z -> (0 < c)%Z -> List.Forall (okA d) A -> List.Forall (okB d) B ->
  0 <= t <= 1 -> x = 2 * IZR c * (1 + t) -> forall r i p E, wsum sg j c L A B r i = Some (p, E) ->
  Rabs (IZR L * IZR d * Sg (IZR sg) j x r i - ev p t) <= IZR E.
Proof.
  intros Hsg Hd Hc FA FB Ht Hx. induction r as [|a r IH]; intros i p E H; cbn [wsum Sg] in *.
  - injection H as <- <-. cbn [ev]. rewrite Rmult_0_r, Rminus_0_r, Rabs_R0. lra.
  - destruct (find _ A) as [[ea ca]|] eqn:EA; [|discriminate]. destruct (find _ B) as [[eb cb]|] eqn:EB; [|discriminate].
    destruct (wsum sg j c L A B r (S i)) as [[p' E']|] eqn:EW; [|discriminate].
    destruct (divides _ L) eqn:D; [|discriminate]. injection H as <- <-. specialize (IH _ _ _ EW).
    apply divides_ok in D. rewrite IZR_pow_nat in D. destruct D as [D1 D2].
    apply find_in in EA, EB. rewrite List.Forall_forall in FA, FB. specialize (FA _ EA). specialize (FB _ EB). cbn [okA okB] in FA, FB.
    destruct FA as [Hm FA]. destruct FB as [_ FB]. apply IZR_lt in Hm. rewrite mult_IZR, <- INR_IZR_INZ in *.
    apply IZR_lt in Hd. apply IZR_lt in Hc.
    assert (T : 2 * (INR i * IZR c) <= INR i * x <= 4 * (INR i * IZR c)) by (rewrite Hx; nra).
    specialize (FA _ T). specialize (FB _ T). unfold pfun in FA, FB. rewrite mult_IZR, <- INR_IZR_INZ in FA, FB.
    assert (Et : INR i * x / (2 * (INR i * IZR c)) - 1 = t) by (rewrite Hx; field; split; intros N; rewrite N in Hm; lra).
    rewrite Et in FA, FB. 
    set (W := (L / Z.of_nat i ^ Z.of_nat j)%Z) in *. clearbody W. rewrite !ev_padd, ev_pscale, ev_padd, ev_pscale, !plus_IZR, !mult_IZR, abs_IZR, mult_IZR, plus_IZR.
    replace (IZR L * IZR d * (IZR a * ((al (INR i * x) + IZR sg * be (INR i * x)) / INR i ^ j) + Sg (IZR sg) j x r (S i)) -
      (IZR a * IZR W * (ev ca t + IZR sg * ev cb t) + ev p' t)) with
      (IZR a * IZR W * (IZR d * (al (INR i * x) - ev ca t / IZR d) + IZR sg * (IZR d * (be (INR i * x) - ev cb t / IZR d)))
       + (IZR L * IZR d * Sg (IZR sg) j x r (S i) - ev p' t)).
    2:{ replace (IZR L * IZR d * (IZR a * ((al (INR i * x) + IZR sg * be (INR i * x)) / INR i ^ j) + Sg (IZR sg) j x r (S i))) with
          (IZR L * (IZR d * (IZR a * ((al (INR i * x) + IZR sg * be (INR i * x)) / INR i ^ j))) + IZR L * IZR d * Sg (IZR sg) j x r (S i)) by ring.
        rewrite D2 at 1. rewrite D2. field. split; lra. }
    eapply Rle_trans; [apply Rabs_triang|]. apply Rplus_le_compat; [|exact IH]. rewrite Rabs_mult.
    apply Rmult_le_compat_l; [apply Rabs_pos|]. eapply Rle_trans; [apply Rabs_triang|]. rewrite !Rabs_mult.
    assert (Sgn : Rabs (IZR sg) = 1) by (destruct Hsg as [-> | ->]; unfold Rabs; destruct (Rcase_abs _); lra).
    rewrite Sgn, Rmult_1_l, (Rabs_right (IZR d)) by lra.
    apply Rplus_le_compat; apply Rmult_le_reg_r with (/ IZR d); try (apply Rinv_0_lt_compat; lra);
      [replace (IZR d * Rabs (al (INR i * x) - ev ca t / IZR d) * / IZR d) with (Rabs (al (INR i * x) - ev ca t / IZR d)) by (field; lra); exact FA|].
    replace (IZR d * Rabs (be (INR i * x) - ev cb t / IZR d) * / IZR d) with (Rabs (be (INR i * x) - ev cb t / IZR d)) by (field; lra). exact FB.
Qed.

(** ** Comparison with a quotient *)
Fixpoint pcomp (p q : list Z) : list Z := match p with [] => [] | a :: p' => padd [a] (pmul q (pcomp p' q)) end.
Lemma ev_pcomp p q t : ev (pcomp p q) t = ev p (ev q t).
Proof. induction p as [|a p IH]; cbn [pcomp ev]; [reflexivity|]. rewrite ev_padd, ev_pmul, IH. cbn [ev]. ring. Qed.
(* hd |U - V| + E <= hn U *)
Definition near (fuel : nat) (hn hd : Z) (U V E : list Z) (a b : Q) : bool :=
  let D := padd U (pscale (-1) V) in let base := padd (pscale hn U) (pscale (-1) E) in
  pos_on fuel (padd base (pscale hd D)) a b && pos_on fuel (padd base (pscale (- hd) D)) a b.
Lemma near_ok fuel hn hd U V E a b t : (0 < hd)%Z -> near fuel hn hd U V E a b = true -> Q2R a <= t <= Q2R b ->
  IZR hd * Rabs (ev U t - ev V t) + ev E t <= IZR hn * ev U t.
Proof.
  intros Hh H Ht. unfold near in H. apply andb_true_iff in H. destruct H as [H1 H2].
  apply (pos_on_ok _ _ _ _ _ H1) in Ht as P1. apply (pos_on_ok _ _ _ _ _ H2) in Ht as P2.
  rewrite !ev_padd, !ev_pscale, ev_padd, ev_pscale in P1. rewrite !ev_padd, !ev_pscale, ev_padd, ev_pscale, opp_IZR in P2. 
  unfold Rabs. destruct (Rcase_abs _); lra.
Qed.
Lemma near_core hd hn U V E D x v w S1 : 0 < hd -> 0 < D -> hd * Rabs (U - V) + hd * E * D <= hn * U ->
  0 < w -> U = w * S1 * x * D -> Rabs (w * v * D - V) <= E * D -> Rabs (S1 * x - v) <= hn / hd * (S1 * x).
Proof.
  intros Hh HD H Hw EU HV.
  apply Rmult_le_reg_l with (w * D * hd); [repeat apply Rmult_lt_0_compat; auto|].
  rewrite <- (Rabs_right (w * D * hd)) at 1 by (apply Rle_ge, Rlt_le; repeat apply Rmult_lt_0_compat; auto). rewrite <- Rabs_mult.
  replace (w * D * hd * (S1 * x - v)) with (hd * (U - V) + hd * (V - w * v * D)) by (rewrite EU; ring).
  replace (w * D * hd * (hn / hd * (S1 * x))) with (hn * U) by (rewrite EU; field; lra).
  eapply Rle_trans; [apply Rabs_triang|]. rewrite !Rabs_mult, (Rabs_right hd) by lra.
  rewrite (Rabs_minus_sym V). nra.
Qed.

(* x in [2c, 4c]: the quotient x^k NN(x^2) / DD(x^2) against tl *)
Definition regA (fuel k : nat) (d c L hn hd S1 : Z) (r : list Z) (A B : list entry) (NN DD : list Z) : bool :=
  let K := kd k in let xx := [(2 * c)%Z; (2 * c)%Z] in let x2 := pmul xx xx in
  match wsum (ksg K) k c L A B r 1, zsum L r 1 with
  | Some (p, E), Some z2 =>
      let N := pcomp NN x2 in let D := pcomp DD x2 in
      let U := pscale (kc0 K * L * d * S1) (pmul (ppow xx k) N) in
      let PV := padd (pscale (kc1 K * S1 * L * d) (ppow xx k)) (padd (pscale (kz K * z2 * d) (ppow xx (k - 2))) (pscale (kc2 K) p)) in
      (0 <? L)%Z && (0 <? d)%Z && (0 <? c)%Z && (0 <? hd)%Z && pos_on fuel D 0 1 && near fuel hn hd U (pmul PV D) (pscale (hd * kc2 K * E) D) 0 1
  | _, _ => false
  end.
Lemma kd_pos k : 0 < IZR (kc0 (kd k)) /\ 0 < IZR (kc2 (kd k)) /\ (ksg (kd k) = 1 \/ ksg (kd k) = -1)%Z.
Proof. destruct k as [|[|[|k]]]; cbn; repeat split; try lra; lia. Qed.
Lemma regA_ok fuel k d c L hn hd S1 r A B NN DD : regA fuel k d c L hn hd S1 r A B NN DD = true ->
  List.Forall (okA d) A -> List.Forall (okB d) B -> forall x, 2 * IZR c <= x <= 4 * IZR c ->
  let u := x ^ k * ev NN (x * x) / ev DD (x * x) in 0 < ev DD (x * x) /\ Rabs (IZR S1 * u - tl k S1 r x) <= IZR hn / IZR hd * (IZR S1 * u).
Proof.
  unfold regA. intros H FA FB x Hx.
  destruct (wsum _ k c L A B r 1) as [[p E]|] eqn:EW; [|discriminate]. destruct (zsum L r 1) as [z2|] eqn:EZ; [|discriminate].
  repeat (apply andb_true_iff in H; destruct H as [H ?]).
  apply Z.ltb_lt in H, H4, H3, H2. assert (Hh := H2). assert (Hd := H4). assert (Hc := H3). apply IZR_lt in H, H4, H3, H2.
  destruct (kd_pos k) as (K0 & K2 & Ks).
  set (t := x / (2 * IZR c) - 1). assert (Ex : x = 2 * IZR c * (1 + t)) by (unfold t; field; lra).
  assert (Ht : 0 <= t <= 1) by (split; apply Rmult_le_reg_l with (2 * IZR c); lra). clearbody t.
  assert (Q : Q2R 0 <= t <= Q2R 1) by (unfold Q2R; cbn; lra).
  pose proof (wsum_ok _ _ _ _ d A B x t Ks Hd Hc FA FB Ht Ex _ _ _ _ EW) as BW. pose proof (zsum_ok _ _ _ _ EZ) as BZ.
  apply (pos_on_ok _ _ _ _ _ H1) in Q as PD. apply (near_ok _ _ _ _ _ _ _ _ t Hh) in H0; [|exact Q].
  set (DX := pcomp DD _) in *. set (xx := [(2 * c)%Z; (2 * c)%Z]) in *.
  assert (Exx : ev xx t = x) by (unfold xx; cbn [ev]; rewrite mult_IZR, Ex; ring).
  assert (ED : ev DX t = ev DD (x * x)) by (unfold DX; rewrite ev_pcomp, ev_pmul, Exx; reflexivity).
  cbv zeta. split; [rewrite <- ED; exact PD|].
  rewrite !ev_pscale, !ev_pmul, !ev_padd, !ev_pscale, ev_pcomp, !ev_pmul, !ev_ppow, ED, Exx, !mult_IZR in H0. rewrite ED in PD. clearbody xx. clear DX ED H1 EW EZ FA FB.
  match type of H0 with _ * Rabs (?U - ?V) + _ <= _ => 
    apply (near_core (IZR hd) (IZR hn) U V (IZR (kc2 (kd k)) * IZR E) (ev DD (x * x)) _ _ (IZR (kc0 (kd k)) * IZR L * IZR d) _ H2 PD) end;
    [replace (IZR hd * (IZR (kc2 (kd k)) * IZR E)) with (IZR hd * IZR (kc2 (kd k)) * IZR E) by ring; exact H0|repeat apply Rmult_lt_0_compat; auto|field; lra|].
  set (dd := ev DD (x * x)) in *. clearbody dd.
  rewrite <- Rmult_minus_distr_r, Rabs_mult, (Rabs_right dd) by lra.
  apply Rmult_le_compat_r; [lra|]. unfold tl. rewrite <- BZ.
  match goal with |- Rabs ?a <= _ => replace a with (IZR (kc2 (kd k)) * (IZR L * IZR d * Sg (IZR (ksg (kd k))) k x r 1 - ev p t)) by (field; lra) end.
  rewrite Rabs_mult, Rabs_right by lra. apply Rmult_le_compat_l; [lra|exact BW].
Qed.

(** ** The region beyond T *)
Fixpoint evens (c : list Z) : list Z := match c with [] => [] | a :: c' => a :: match c' with [] => [] | _ :: c'' => evens c'' end end.
Fixpoint isev (c : list Z) : bool := match c with [] => true | _ :: c' => match c' with [] => true | b :: c'' => (b =? 0)%Z && isev c'' end end.
Lemma ev_evens c y : isev c = true -> ev (evens c) (y * y) = ev c y.
Proof.
  assert (X : forall n c, (length c <= n)%nat -> isev c = true -> ev (evens c) (y * y) = ev c y).
  { induction n as [|n IH]; intros [|a [|b c0]] L E; cbn [evens isev length ev] in *; try lia; try ring.
    apply andb_true_iff in E. destruct E as [E1 E2]. apply Z.eqb_eq in E1. rewrite IH by (auto; lia). rewrite E1. ring. }
  apply (X (length c)). lia.
Qed.
(* w^n p(y / w), n the number of coefficients, with w^n *)
Fixpoint pdil (w : Z) (c : list Z) : list Z * Z :=
  match c with [] => ([], 1%Z) | a :: c' => let (p, k) := pdil w c' in ((w * k * a)%Z :: p, (w * k)%Z) end.
Lemma ev_pdil w c y : (0 < w)%Z -> ev (fst (pdil w c)) y = IZR w ^ length c * ev c (y / IZR w) /\ IZR (snd (pdil w c)) = IZR w ^ length c.
Proof.
  intros Hw. apply IZR_lt in Hw. induction c as [|a c [IH1 IH2]]; cbn [pdil length pow]; [cbn; lra|].
  destruct (pdil w c) as [p k]. cbn [fst snd ev] in *. rewrite !mult_IZR, IH1, IH2. split; [field; lra|ring].
Qed.
Fixpoint wasum (j : nat) (L : Z) (q : list Z) (r : list Z) (i : nat) : option (list Z * Z) :=
  match r with
  | [] => Some ([], 0%Z)
  | a :: r' =>
      match wasum j L q r' (S i) with
      | Some (p, E) =>
          if divides (Z.of_nat i ^ Z.of_nat (j + S (length q))) L
          then Some (padd (pscale (a * (L / Z.of_nat i ^ Z.of_nat (j + S (length q)))) (fst (pdil (Z.of_nat i) q))) p, (Z.abs a + E)%Z)
          else None
      | None => None
      end
  end.
Lemma wasum_ok j L dq qa qb sg x e T : (sg = 1 \/ sg = -1)%Z -> 0 < IZR dq -> 0 < IZR T -> IZR T <= x -> 0 <= IZR L ->
  (forall t, IZR T <= t -> Rabs (al t - afun dq qa t) + Rabs (be t - afun dq qb t) <= e) ->
  forall r i p E, (0 < i)%nat -> wasum j L (padd qa (pscale sg qb)) r i = Some (p, E) ->
  Rabs (IZR L * IZR dq * Sg (IZR sg) j x r i - / x * ev p (/ x)) <= IZR L * IZR dq * e * IZR E.
Proof.
  intros Hsg Hq HT Hx HL HE. set (q := padd qa (pscale sg qb)).
  assert (e0 : 0 <= e). { eapply Rle_trans; [|apply (HE (IZR T)); lra]. apply Rplus_le_le_0_compat; apply Rabs_pos. }
  induction r as [|a r IH]; intros i p E Hi H; cbn [wasum Sg] in *.
  - injection H as <- <-. cbn [ev]. rewrite !Rmult_0_r, Rminus_0_r, Rabs_R0. lra.
  - destruct (wasum j L q r (S i)) as [[p' E']|] eqn:EW; [|discriminate].
    destruct (divides _ L) eqn:D; [|discriminate]. injection H as <- <-. specialize (IH (S i) _ _ ltac:(lia) EW).
    apply divides_ok in D. rewrite IZR_pow_nat in D. destruct D as [D1 D2]. set (W := (L / Z.of_nat i ^ Z.of_nat (j + S (length q)))%Z) in *. clearbody W.
    assert (I1 : 1 <= INR i) by (apply (le_INR 1); lia).
    specialize (HE (INR i * x) ltac:(nra)).
    rewrite ev_padd, ev_pscale, (proj1 (ev_pdil (Z.of_nat i) q (/ x) ltac:(lia))), mult_IZR, plus_IZR, abs_IZR, <- INR_IZR_INZ.
    replace (/ x / INR i) with (/ (INR i * x)) by (field; lra).
    set (y := / (INR i * x)) in *.
    assert (Eq : ev q y = ev qa y + IZR sg * ev qb y) by (unfold q; rewrite ev_padd, ev_pscale; reflexivity).
    assert (Y1 : / x = INR i * y) by (unfold y; field; lra).
    assert (ex1 : IZR L / INR i ^ j = INR i * INR i ^ length q * IZR W).
    { rewrite D2. rewrite pow_add. cbn [pow]. field. apply pow_nonzero. lra. }
    replace (IZR L * IZR dq * (IZR a * ((al (INR i * x) + IZR sg * be (INR i * x)) / INR i ^ j) + Sg (IZR sg) j x r (S i)) -
      / x * (IZR a * IZR W * (INR i ^ length q * ev q y) + ev p' (/ x))) with
      (IZR a * (IZR L / INR i ^ j * IZR dq * ((al (INR i * x) - afun dq qa (INR i * x)) + IZR sg * (be (INR i * x) - afun dq qb (INR i * x))))
       + (IZR L * IZR dq * Sg (IZR sg) j x r (S i) - / x * ev p' (/ x))).
    2:{ unfold afun. fold y. clear IH HE. set (pr := ev p' (/ x)). clearbody pr. rewrite Eq, Y1.
        set (sr := Sg (IZR sg) j x r (S i)). clearbody sr. set (av := al (INR i * x)). set (bv := be (INR i * x)). clearbody av bv.
        replace (IZR L * IZR dq * (IZR a * ((av + IZR sg * bv) / INR i ^ j) + sr)) with
          (IZR L / INR i ^ j * IZR dq * IZR a * (av + IZR sg * bv) + IZR L * IZR dq * sr) by (unfold Rdiv; ring).
        rewrite ex1. field. lra. }
    eapply Rle_trans; [apply Rabs_triang|]. replace (IZR L * IZR dq * e * (Rabs (IZR a) + IZR E')) with (Rabs (IZR a) * (IZR L * IZR dq * e) + IZR L * IZR dq * e * IZR E') by ring.
    apply Rplus_le_compat; [|exact IH]. rewrite Rabs_mult. apply Rmult_le_compat_l; [apply Rabs_pos|].
    assert (Pj : 1 <= INR i ^ j) by (apply pow_R1_Rle; exact I1).
    assert (LJ : 0 <= IZR L / INR i ^ j <= IZR L).
    { split; [apply Rmult_le_pos; [lra|apply Rlt_le, Rinv_0_lt_compat; lra]|]. apply Rmult_le_reg_r with (INR i ^ j); [lra|].
      unfold Rdiv. rewrite Rmult_assoc, Rinv_l by lra. nra. }
    rewrite Rabs_mult, (Rabs_right (_ * IZR dq)) by (apply Rle_ge, Rmult_le_pos; lra).
    apply Rmult_le_compat; [apply Rmult_le_pos; lra|apply Rabs_pos|apply Rmult_le_compat_r; lra|].
    eapply Rle_trans; [apply Rabs_triang|]. rewrite (Rabs_mult (IZR sg)).
    assert (Sgn : Rabs (IZR sg) = 1) by (destruct Hsg as [-> | ->]; unfold Rabs; destruct (Rcase_abs _); lra). rewrite Sgn. lra.
Qed.
Definition regB (fuel k : nat) (d L hn hd S1 T dq ee : Z) (r qa qb : list Z) (NN DD : list Z) : bool :=
  let K := kd k in
  match wasum k L (padd qa (pscale (ksg K) qb)) r 1, zsum L r 1 with
  | Some (p, E), Some z2 =>
      let PV := padd [(kc1 K * S1 * L * dq * d)%Z] (padd [0; 0; kz K * z2 * dq * d]%Z (pscale (kc2 K * d) (repeat 0%Z (S k) ++ p))) in
      let U := pscale (kc0 K * L * dq * d * S1) NN in
      (0 <? L)%Z && (0 <? d)%Z && (0 <? hd)%Z && (0 <? dq)%Z && (0 <? T)%Z && (0 <=? ee)%Z && (0 <=? E)%Z && isev PV && pos_on fuel DD 0 (1 # Z.to_pos (T * T)) &&
      near fuel hn hd U (pmul (evens PV) DD) (pscale (hd * kc2 K * L * dq * ee * E) DD) 0 (1 # Z.to_pos (T * T))
  | _, _ => false
  end.
Lemma ev_zeros n p y : ev (repeat 0%Z n ++ p) y = y ^ n * ev p y.
Proof. induction n as [|n IH]; cbn [repeat app ev pow]; [ring|]. rewrite IH. ring. Qed.
Lemma kz_pow k x : (k <= 3)%nat -> x <> 0 -> IZR (kz (kd k)) * x ^ (k - 2) = IZR (kz (kd k)) * x ^ k * (/ x * / x).
Proof. intros H N. destruct k as [|[|[|[|k]]]]; [| | | |lia]; cbn; field; auto. Qed.
Lemma regB_ok fuel k d L hn hd S1 T dq ee r qa qb NN DD : (k <= 3)%nat -> regB fuel k d L hn hd S1 T dq ee r qa qb NN DD = true ->
  (forall t, IZR T <= t -> Rabs (al t - afun dq qa t) + Rabs (be t - afun dq qb t) <= IZR ee / IZR d) -> forall x, IZR T <= x ->
  let u := x ^ k * (ev NN (1 / (x * x)) / ev DD (1 / (x * x))) in
  0 < ev DD (1 / (x * x)) /\ Rabs (IZR S1 * u - tl k S1 r x) <= IZR hn / IZR hd * (IZR S1 * u).
Proof.
  unfold regB. intros Hk H HE x Hx.
  destruct (wasum k L _ r 1) as [[p E]|] eqn:EW; [|discriminate]. destruct (zsum L r 1) as [z2|] eqn:EZ; [|discriminate].
  repeat (apply andb_true_iff in H; destruct H as [H ?]).
  apply Z.ltb_lt in H, H5, H6, H7, H8. apply Z.leb_le in H3, H4.
  assert (Hh := H7). assert (HT := H5). apply IZR_lt in H, H5, H6, H7, H8. apply IZR_le in H3, H4.
  destruct (kd_pos k) as (K0 & K2 & Ks).
  pose proof (wasum_ok k L dq qa qb _ x _ T Ks H6 H5 Hx ltac:(lra) HE r 1%nat p E ltac:(lia) EW) as BW. pose proof (zsum_ok _ _ _ _ EZ) as BZ.
  assert (Q : Q2R 0 <= 1 / (x * x) <= Q2R (1 # Z.to_pos (T * T))).
  { unfold Q2R. cbn [Qnum Qden]. rewrite Z2Pos.id by lia. rewrite mult_IZR. split; [cbn; rewrite Rmult_0_l; apply Rlt_le, Rdiv_lt_0_compat; nra|].
    rewrite Rmult_1_l. unfold Rdiv. rewrite Rmult_1_l. apply Rinv_le_contravar; nra. }
  assert (Xz : 1 / (x * x) = / x * / x) by (field; lra). 
  apply (pos_on_ok _ _ _ _ _ H1) in Q as PD. apply (near_ok _ _ _ _ _ _ _ _ (1 / (x * x)) Hh) in H0; [|exact Q].
  cbv zeta. split; [exact PD|].
  rewrite !ev_pscale, ev_pmul in H0. rewrite Xz in H0 at 2. rewrite ev_evens in H0 by exact H2.
  rewrite !ev_padd, ev_pscale, ev_zeros in H0. cbn [ev] in H0. rewrite !mult_IZR in H0. rewrite <- BZ in H0.
  clear H1 H2 EW EZ HE Q BZ. set (dd := ev DD (1 / (x * x))) in *. clearbody dd. set (nn := ev NN (1 / (x * x))) in *. clearbody nn.
  assert (X0 : 0 < x) by lra. pose proof (pow_lt x k X0) as Xk. pose proof (kz_pow k x Hk ltac:(lra)) as KP.
  assert (PY : x ^ k * (/ x) ^ S k = / x). { cbn [pow]. rewrite pow_inv. field. split; try apply pow_nonzero; lra. }
  assert (KV : tl k S1 r x = x ^ k * (tl k S1 r x / x ^ k)) by (field; lra).
  rewrite KV. set (v := tl k S1 r x / x ^ k) in *.
  assert (Ev : IZR (kc0 (kd k)) * v = IZR (kc1 (kd k)) * IZR S1 + IZR (kz (kd k)) * (/ x * / x) * Z2 r 1 + IZR (kc2 (kd k)) * Sg (IZR (ksg (kd k))) k x r 1 / x ^ k).
  { unfold v, tl. rewrite KP. field. repeat split; lra. }
  clearbody v. clear KV KP.
  replace (IZR S1 * (x ^ k * (nn / dd)) - x ^ k * v) with (x ^ k * (IZR S1 * (nn / dd) - v)) by ring.
  rewrite Rabs_mult, (Rabs_right (x ^ k)) by lra.
  replace (IZR hn / IZR hd * (IZR S1 * (x ^ k * (nn / dd)))) with (x ^ k * (IZR hn / IZR hd * (IZR S1 * (nn / dd)))) by ring.
  apply Rmult_le_compat_l; [lra|].
  match type of H0 with _ * Rabs (?U - ?V) + _ <= _ => 
    apply (near_core (IZR hd) (IZR hn) U V (IZR (kc2 (kd k)) * IZR L * IZR dq * IZR ee * IZR E) dd _ _ (IZR (kc0 (kd k)) * IZR L * IZR dq * IZR d) _ H7 PD) end;
    [match type of H0 with ?l <= _ => match goal with |- ?l' <= _ => replace l' with l by ring end end; exact H0|repeat apply Rmult_lt_0_compat; auto|field; lra|].
  rewrite <- Rmult_minus_distr_r, Rabs_mult, (Rabs_right dd) by lra. apply Rmult_le_compat_r; [lra|].
  assert (X1 : 1 <= x ^ k) by (apply pow_R1_Rle; assert (1 <= IZR T) by (apply IZR_le; lia); lra).
  set (sg := Sg _ k x r 1) in *. clearbody sg. set (pv := ev p (/ x)) in *. clearbody pv. clear H0.
  match goal with |- Rabs ?a <= _ => replace a with (IZR (kc2 (kd k)) * IZR d * / x ^ k * (IZR L * IZR dq * sg - / x * pv)) end.
  2:{ replace (IZR (kc0 (kd k)) * IZR L * IZR dq * IZR d * v) with (IZR L * IZR dq * IZR d * (IZR (kc0 (kd k)) * v)) by ring.
      rewrite Ev. rewrite <- PY at 1. cbn [pow]. rewrite pow_inv. field. repeat split; try lra. }
  rewrite Rabs_mult. assert (Xi : 0 < / x ^ k <= 1).
  { split; [now apply Rinv_0_lt_compat|]. rewrite <- Rinv_1. apply Rinv_le_contravar; lra. }
  rewrite (Rabs_right (_ * / _)) by (apply Rle_ge, Rlt_le; repeat apply Rmult_lt_0_compat; lra).
  apply Rle_trans with (IZR (kc2 (kd k)) * IZR d * 1 * (IZR L * IZR dq * (IZR ee / IZR d) * IZR E)).
  - apply Rmult_le_compat; [|apply Rabs_pos| |exact BW].
    + apply Rlt_le. repeat apply Rmult_lt_0_compat; lra.
    + apply Rmult_le_compat_l; [apply Rlt_le, Rmult_lt_0_compat; lra|lra].
  - right. field. lra.
Qed.

(** ** From the quotient to the integral *)
Lemma tail_final S1 u v l s hn hd eps : 0 < S1 -> 0 < s -> 0 < hd -> 0 < l -> Rabs (S1 * u - v) <= hn / hd * (S1 * u) -> Rabs (S1 * l - s * v) <= l ->
  0 <= hn -> (S1 * hn + hd) <= eps * (S1 * (hd - hn)) -> hn < hd -> Rabs (s * u - l) <= eps * l.
Proof.
  intros HS Hs Hd Hl B1 B2 Hn HB Hlt.
  assert (B3 : Rabs (S1 * (s * u) - s * v) <= hn / hd * (S1 * (s * u))).
  { replace (S1 * (s * u) - s * v) with (s * (S1 * u - v)) by ring. rewrite Rabs_mult, (Rabs_right s) by lra.
    replace (hn / hd * (S1 * (s * u))) with (s * (hn / hd * (S1 * u))) by ring. apply Rmult_le_compat_l; lra. }
  clear B1. set (g := s * u) in *. clearbody g. set (w := s * v) in *. clearbody w.
  assert (B4 : hd * Rabs (S1 * (g - l)) <= hn * (S1 * g) + hd * l).
  { replace (S1 * (g - l)) with ((S1 * g - w) + (w - S1 * l)) by ring. rewrite (Rabs_minus_sym) in B2.
    apply Rle_trans with (hd * (hn / hd * (S1 * g) + l)).
    - apply Rmult_le_compat_l; [lra|]. eapply Rle_trans; [apply Rabs_triang|]. lra.
    - right. field. lra. }
  rewrite Rabs_mult, (Rabs_right S1) in B4 by lra. set (D := Rabs (g - l)) in *.
  assert (G : g <= l + D) by (unfold D; pose proof (Rle_abs (g - l)); lra).
  assert (D0 : 0 <= D) by apply Rabs_pos. clearbody D.
  assert (hn * (S1 * g) <= hn * (S1 * (l + D))) by (apply Rmult_le_compat_l; [lra|]; apply Rmult_le_compat_l; lra).
  assert (B5 : S1 * (hd - hn) * D <= (S1 * hn + hd) * l) by lra.
  apply Rmult_le_reg_l with (S1 * (hd - hn)); [apply Rmult_lt_0_compat; lra|].
  eapply Rle_trans; [exact B5|]. apply Rle_trans with (eps * (S1 * (hd - hn)) * l); [apply Rmult_le_compat_r; lra|lra].
Qed.

(** ** A lower bound at a single point *)
(* at x = 4c the quotient is off by more than hn/hd *)
Definition regP (k : nat) (d c L hn hd S1 : Z) (r : list Z) (A B : list entry) (NN DD : list Z) : bool :=
  let K := kd k in let x := (4 * c)%Z in
  match wsum (ksg K) k c L A B r 1, zsum L r 1 with
  | Some (p, E), Some z2 =>
      let N := evZ (x * x) 1 NN in let D := evZ (x * x) 1 DD in
      let U := (kc0 K * L * d * S1 * (x ^ Z.of_nat k * N))%Z in
      let PV := (kc1 K * S1 * L * d * x ^ Z.of_nat k + (kz K * z2 * d * x ^ Z.of_nat (k - 2) + kc2 K * psum p))%Z in
      (0 <? L)%Z && (0 <? d)%Z && (0 <? c)%Z && (0 <? hd)%Z && (0 <? D)%Z && (hn * U <=? hd * (Z.abs (U - PV * D) - kc2 K * E * D))%Z
  | _, _ => false
  end.
Lemma regP_ok k d c L hn hd S1 r A B NN DD : regP k d c L hn hd S1 r A B NN DD = true ->
  List.Forall (okA d) A -> List.Forall (okB d) B -> let x := 4 * IZR c in
  let u := x ^ k * ev NN (x * x) / ev DD (x * x) in IZR hn / IZR hd * (IZR S1 * u) <= Rabs (IZR S1 * u - tl k S1 r x).
Proof.
  unfold regP. intros H FA FB.
  destruct (wsum _ k c L A B r 1) as [[p E]|] eqn:EW; [|discriminate]. destruct (zsum L r 1) as [z2|] eqn:EZ; [|discriminate].
  repeat (apply andb_true_iff in H; destruct H as [H ?]).
  apply Z.ltb_lt in H, H4, H3, H2, H1. assert (Hd := H4). assert (Hc := H3). apply IZR_lt in H, H4, H3, H2, H1. apply Z.leb_le, IZR_le in H0.
  destruct (kd_pos k) as (K0 & K2 & Ks). cbv zeta. set (x := 4 * IZR c).
  assert (Ex : x = 2 * IZR c * (1 + 1)) by (unfold x; ring). assert (Ez : IZR (4 * c) = x) by (unfold x; apply mult_IZR). clearbody x.
  pose proof (wsum_ok _ _ _ _ d A B x 1 Ks Hd Hc FA FB ltac:(lra) Ex _ _ _ _ EW) as BW. pose proof (zsum_ok _ _ _ _ EZ) as BZ.
  rewrite ev_1 in BW. fold (psum p) in BW.
  assert (EV : forall q, IZR (evZ (4 * c * (4 * c)) 1 q) = ev q (x * x)).
  { intros q. rewrite evZ_ok by lia. rewrite pow1, mult_IZR, Ez. replace (x * x / 1) with (x * x) by field. ring. }
  rewrite EV in H1. rewrite !mult_IZR, minus_IZR, abs_IZR, minus_IZR, !mult_IZR, !EV, !plus_IZR, !mult_IZR, <- !pow_IZR, Ez in H0. rewrite <- BZ in H0.
  clear EW EZ FA FB EV BZ. set (dd := ev DD (x * x)) in *. clearbody dd. set (nn := ev NN (x * x)) in *. clearbody nn.
  set (w := IZR (kc0 (kd k)) * IZR L * IZR d). assert (Hw : 0 < w) by (unfold w; repeat apply Rmult_lt_0_compat; auto).
  set (u := x ^ k * nn / dd). set (v := tl k S1 r x).
  assert (EU : IZR (kc0 (kd k)) * IZR L * IZR d * IZR S1 * (x ^ k * nn) = w * dd * (IZR S1 * u)) by (unfold u, w; field; lra).
  rewrite EU in H0.
  match type of H0 with _ <= _ * (Rabs (_ - ?p * dd) - _) => set (pv := p) in * end.
  assert (V : Rabs (w * v - pv) <= IZR (kc2 (kd k)) * IZR E).
  { replace (w * v - pv) with (IZR (kc2 (kd k)) * (IZR L * IZR d * Sg (IZR (ksg (kd k))) k x r 1 - IZR (psum p))).
    - rewrite Rabs_mult, Rabs_right by lra. apply Rmult_le_compat_l; [lra|exact BW].
    - unfold w, v, pv, tl. field. lra. }
  clearbody pv v u w. clear EU BW.
  apply Rmult_le_reg_l with (IZR hd * (w * dd)); [repeat apply Rmult_lt_0_compat; auto|].
  replace (IZR hd * (w * dd) * (IZR hn / IZR hd * (IZR S1 * u))) with (IZR hn * (w * dd * (IZR S1 * u))) by (field; lra).
  eapply Rle_trans; [exact H0|].
  replace (IZR hd * (w * dd) * Rabs (IZR S1 * u - v)) with (IZR hd * Rabs (w * dd * (IZR S1 * u - v)))
    by (rewrite Rabs_mult, (Rabs_right (w * dd)) by (apply Rle_ge, Rlt_le, Rmult_lt_0_compat; auto); ring).
  apply Rmult_le_compat_l; [lra|].
  replace (w * dd * (IZR S1 * u) - pv * dd) with (w * dd * (IZR S1 * u - v) + dd * (w * v - pv)) by ring.
  pose proof (Rabs_triang (w * dd * (IZR S1 * u - v)) (dd * (w * v - pv))) as T. rewrite (Rabs_mult dd), (Rabs_right dd) in T by lra.
  assert (dd * Rabs (w * v - pv) <= dd * (IZR (kc2 (kd k)) * IZR E)) by (apply Rmult_le_compat_l; lra). lra.
Qed.
