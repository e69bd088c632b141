(* C99, C100: the colormaps. *)
From Coq Require Import String List Arith ZArith Bool Lia Reals Lra.
From Verif Require Import PyBase ItemAttr PropsItemAttr Pyplotx CmapData CmapCert Cmaps.
Import ListNotations.
Local Open Scope R_scope.

(** ** Spec: lightness of an sRGB colour *)
(* IEC 61966-2-1: linear intensity of a colour component c between 0 and 1 *)
Definition srgb_lin (c : R) : R := if Rle_dec c (4045 / 100000) then c / (1292 / 100) else Rpower ((c + 55 / 1000) / (1055 / 1000)) (24 / 10).
(* relative luminance, red green and blue weighted *)
Definition luminance (r g b : R) : R := 2126 / 10000 * srgb_lin r + 7152 / 10000 * srgb_lin g + 722 / 10000 * srgb_lin b.
(* CIE 1976 lightness L*, 0 for black and 100 for white *)
Definition cie_f (t : R) : R := if Rle_dec t ((6 / 29) ^ 3) then t / (3 * (6 / 29) ^ 2) + 4 / 29 else Rpower t (1 / 3).
Definition lightness (y : R) : R := 116 * cie_f y - 16.
(* lightness of a colour given in millionths *)
Definition mill (n : Z) : R := IZR n / 1000000.
Definition light_of (c : Z * Z * Z) : R := let '(r, g, b) := c in lightness (luminance (mill r) (mill g) (mill b)).

(** ** Checking *)
Lemma pow_mono_inv k a y : (0 < k)%nat -> 0 <= a -> 0 <= y -> a ^ k <= y ^ k -> a <= y.
Proof.
  intros Hk Ha Hy H. destruct (Rle_or_lt a y) as [|L]; auto. exfalso.
  assert (y ^ k < a ^ k); [|lra]. clear H. destruct k as [|k]; [lia|]. clear Hk. induction k as [|k IH]; [cbn; lra|].
  cbn [pow] in *. apply Rmult_le_0_lt_compat; auto. apply Rmult_le_pos; auto. apply pow_le; auto.
Qed.
Lemma Rpower_root x k (e : R) m : 0 < x -> (0 < k)%nat -> e * INR k = INR m -> Rpower x e ^ k = x ^ m.
Proof.
  intros Hx Hk E. rewrite <- Rpower_pow by (apply exp_pos). rewrite Rpower_mult, E. apply Rpower_pow; auto.
Qed.
(* 10^7 lin(n) is between a and a+3; w is 10^7 ((n+55000)/1055000)^(1/5) *)
Definition pow3 (a : Z) : Z := (a * a * a)%Z.
Definition pow5 (a : Z) : Z := let b := (a * a)%Z in (b * b * a)%Z.
Definition ten35 : Z := Eval compute in (10 ^ 35)%Z.
Definition den2 : Z := Eval compute in (1055000 ^ 2 * 10 ^ 7)%Z.
Definition lin_ok (n w a : Z) : bool :=
  ((0 <=? n) && (0 <=? a) && (0 <=? w) &&
   if n <=? 40450 then (a * 1292 <=? n * 1000) && (n * 1000 <=? (a + 3) * 1292)
   else let x := n + 55000 in let p := x * ten35 in
        let y := x * w in let z := x * (w + 1) in
        (pow5 w * 1055000 <=? p) && (p <=? pow5 (w + 1) * 1055000) && (a * den2 <=? y * y) && (z * z <=? (a + 3) * den2))%Z.
Lemma IZR_pow3 a : IZR (pow3 a) = IZR a ^ 3. Proof. unfold pow3. rewrite !mult_IZR. ring. Qed.
Lemma IZR_pow5 a : IZR (pow5 a) = IZR a ^ 5. Proof. unfold pow5. rewrite !mult_IZR. ring. Qed.
Lemma IZR_ten35 : IZR ten35 = (10 ^ 7) ^ 5. Proof. rewrite <- pow_mult. change ten35 with (10 ^ Z.of_nat 35)%Z. rewrite <- pow_IZR. reflexivity. Qed.
Lemma IZR_den2 : IZR den2 = 1055000 ^ 2 * 10 ^ 7. Proof. change den2 with (1055000 ^ Z.of_nat 2 * 10 ^ Z.of_nat 7)%Z. rewrite mult_IZR, <- !pow_IZR. reflexivity. Qed.
Lemma lin_ok_spec n w a : lin_ok n w a = true -> IZR a / 10 ^ 7 <= srgb_lin (mill n) <= (IZR a + 3) / 10 ^ 7.
Proof.
  unfold lin_ok. intros H. apply andb_prop in H as [H H2]. apply andb_prop in H as [H Hw]. apply andb_prop in H as [H0 H1]. apply Z.leb_le in H0, H1, Hw.
  apply IZR_le in H0, H1, Hw. unfold srgb_lin, mill.
  destruct (Z.leb_spec n 40450) as [L|L]; apply andb_prop in H2 as [H2 H3]; apply Z.leb_le in H3; apply IZR_le in H3.
  - apply Z.leb_le in H2. apply IZR_le in H2. rewrite !mult_IZR in H2, H3. rewrite plus_IZR in H3. apply IZR_le in L. destruct (Rle_dec _ _) as [_|N]; [|lra]. split; lra.
  - apply IZR_lt in L. destruct (Rle_dec _ _) as [N|_]; [lra|].
    apply andb_prop in H2 as [H2 H4]. apply andb_prop in H2 as [H2 H5]. apply Z.leb_le in H2, H4, H5. apply IZR_le in H2, H4, H5.
    rewrite !mult_IZR, IZR_pow5, plus_IZR, IZR_ten35 in H2. rewrite !mult_IZR, IZR_pow5, !plus_IZR, IZR_ten35 in H5.
    rewrite !mult_IZR, !plus_IZR, IZR_den2 in H4. rewrite !mult_IZR, !plus_IZR, IZR_den2 in H3.
    set (x := (IZR n / 1000000 + 55 / 1000) / (1055 / 1000)). assert (Hx : 0 < x) by (unfold x; lra).
    pose proof (Rpower_root x 5 (1 / 5) 1 Hx ltac:(lia) ltac:(cbn; lra)) as E. rewrite pow_1 in E. set (v := Rpower x (1 / 5)) in *.
    assert (Hv : 0 < v) by apply exp_pos.
    assert (E2 : Rpower x (24 / 10) = x ^ 2 * v ^ 2).
    { unfold v. replace (24 / 10) with (INR 2 + 1 / 5 * INR 2) by (cbn; lra). rewrite Rpower_plus, <- Rpower_mult, !Rpower_pow; auto; apply exp_pos. }
    rewrite E2. assert (Ex : IZR n + 55000 = x * 1055000) by (unfold x; lra). rewrite Ex in H2, H3, H4, H5.
    assert (K2 : IZR w ^ 5 <= (v * 10 ^ 7) ^ 5) by (rewrite Rpow_mult_distr, E; lra).
    assert (K3 : (v * 10 ^ 7) ^ 5 <= (IZR w + 1) ^ 5) by (rewrite Rpow_mult_distr, E; lra).
    apply pow_mono_inv in K2; [|lia|lra|lra]. apply pow_mono_inv in K3; [|lia|lra|lra].
    assert (X2 : 0 < x * 1055000) by lra.
    assert (M1 : (x * 1055000 * IZR w) * (x * 1055000 * IZR w) <= (x * 1055000 * (v * 10 ^ 7)) * (x * 1055000 * (v * 10 ^ 7)))
      by (apply Rmult_le_compat; try apply Rmult_le_pos; try apply Rmult_le_compat_l; lra).
    assert (M2 : (x * 1055000 * (v * 10 ^ 7)) * (x * 1055000 * (v * 10 ^ 7)) <= (x * 1055000 * (IZR w + 1)) * (x * 1055000 * (IZR w + 1)))
      by (apply Rmult_le_compat; try apply Rmult_le_pos; try apply Rmult_le_compat_l; lra).
    replace ((x * 1055000 * (v * 10 ^ 7)) * (x * 1055000 * (v * 10 ^ 7))) with (x ^ 2 * v ^ 2 * (1055000 ^ 2 * (10 ^ 7) ^ 2)) in M1, M2 by ring.
    lra.
Qed.

(* 10^6 f(y) is between q and q+4 for all y between s and s + 3*10^4, in units of 10^-11 *)
Definition cube_ok (s q : Z) : bool :=
  ((0 <=? s) && (0 <=? q) &&
   if (s + 30000) * 24389 <=? 21600000000000
   then (q * 313200000 <=? s * 24389 + 43200000000000) && ((s + 30000) * 24389 + 43200000000000 <=? (q + 4) * 313200000)
   else (21600000000000 <? s * 24389) && (pow3 q <=? s * 10000000) && ((s + 30000) * 10000000 <=? pow3 (q + 4)))%Z.
Lemma cube_ok_spec s q y : cube_ok s q = true -> IZR s / 10 ^ 11 <= y <= (IZR s + 30000) / 10 ^ 11 ->
  IZR q / 10 ^ 6 <= cie_f y <= (IZR q + 4) / 10 ^ 6.
Proof.
  unfold cube_ok. intros H [Y1 Y2]. apply andb_prop in H as [H H2]. apply andb_prop in H as [H0 H1]. apply Z.leb_le in H0, H1.
  apply IZR_le in H0 as H0'. apply IZR_le in H1 as H1'. unfold cie_f.
  destruct (Z.leb_spec ((s + 30000) * 24389) 21600000000000) as [L|_]; apply andb_prop in H2 as [H2 H3].
  - apply Z.leb_le in H2, H3. apply IZR_le in L, H2, H3. rewrite mult_IZR, plus_IZR in L. rewrite plus_IZR, !mult_IZR in H2. rewrite plus_IZR, !mult_IZR, !plus_IZR in H3.
    destruct (Rle_dec _ _) as [_|N]; [|exfalso; apply N; lra]. split; lra.
  - apply andb_prop in H2 as [L H2]. apply Z.ltb_lt in L. apply Z.leb_le in H2, H3. apply IZR_lt in L. apply IZR_le in H2, H3.
    rewrite mult_IZR in L. rewrite mult_IZR, IZR_pow3 in H2. rewrite mult_IZR, IZR_pow3, !plus_IZR in H3.
    destruct (Rle_dec _ _) as [N|_]; [exfalso; lra|].
    assert (Hy : 0 < y) by lra. pose proof (Rpower_root y 3 (1 / 3) 1 Hy ltac:(lia) ltac:(cbn; lra)) as E. rewrite pow_1 in E.
    set (z := Rpower y (1 / 3)) in *. assert (Hz : 0 < z) by apply exp_pos.
    assert (E' : (z * 10 ^ 6) ^ 3 = y * 10 ^ 18) by (rewrite Rpow_mult_distr, E, <- pow_mult; reflexivity).
    assert (K2 : IZR q ^ 3 <= (z * 10 ^ 6) ^ 3) by (rewrite E'; lra).
    assert (K3 : (z * 10 ^ 6) ^ 3 <= (IZR q + 4) ^ 3) by (rewrite E'; lra).
    apply pow_mono_inv in K2; [|lia|lra|lra]. apply pow_mono_inv in K3; [|lia|lra|lra]. lra.
Qed.
(* the colour, its certificate, and the lightness bound from it *)
Definition certs := list (Z * Z * Z * Z * Z * Z * Z).
Definition col_ok (c : Z * Z * Z) (k : Z * Z * Z * Z * Z * Z * Z) : bool :=
  let '(r, g, b) := c in let '(wr, wg, wb, ar, ag, ab, q) := k in
  lin_ok r wr ar && lin_ok g wg ag && lin_ok b wb ab && cube_ok (2126 * ar + 7152 * ag + 722 * ab)%Z q.
Lemma col_ok_spec c k : col_ok c k = true -> 116 * IZR (snd k) / 10 ^ 6 - 16 <= light_of c <= 116 * (IZR (snd k) + 4) / 10 ^ 6 - 16.
Proof.
  destruct c as [[r g] b], k as [[[[[[wr wg] wb] ar] ag] ab] q]. unfold col_ok. intros H. cbn [snd].
  apply andb_prop in H as [H H4]. apply andb_prop in H as [H H3]. apply andb_prop in H as [H1 H2].
  apply lin_ok_spec in H1, H2, H3. unfold light_of, lightness.
  assert (P := cube_ok_spec _ _ (luminance (mill r) (mill g) (mill b)) H4). rewrite !plus_IZR, !mult_IZR in P. unfold luminance in *.
  destruct P as [P1 P2]; [split; lra|]. lra.
Qed.
Fixpoint steps_ok (lo hi : Z) (l : colours) (k : certs) : bool :=
  match l, k with
  | c :: l', q :: k' =>
    col_ok c q && match k' with
                  | q' :: _ => ((lo <=? 116 * (snd q' - snd q - 4)) && (116 * (snd q' - snd q + 4) <=? hi))%Z
                  | [] => true
                  end && steps_ok lo hi l' k'
  | [], [] => true
  | _, _ => false
  end.
Lemma steps_ok_spec lo hi d : forall l k, steps_ok lo hi l k = true ->
  forall i, (S i < length l)%nat -> IZR lo / 10 ^ 6 <= light_of (nth (S i) l d) - light_of (nth i l d) <= IZR hi / 10 ^ 6.
Proof.
  induction l as [|c l IH]; intros [|q k] H i Hi; try discriminate; cbn [length] in Hi; [lia|].
  cbn [steps_ok] in H. apply andb_prop in H as [H H3]. apply andb_prop in H as [H1 H2].
  destruct i as [|i]; [|apply (IH k H3 i); lia].
  destruct l as [|c' l]; [cbn in Hi; lia|]. destruct k as [|q' k]; [discriminate|]. cbn [nth].
  assert (H3' := H3). cbn [steps_ok] in H3'. apply andb_prop in H3' as [H3' _]. apply andb_prop in H3' as [H3' _].
  apply col_ok_spec in H1, H3'. apply andb_prop in H2 as [A B]. apply Z.leb_le in A, B. apply IZR_le in A, B.
  rewrite mult_IZR, plus_IZR, minus_IZR in B. rewrite mult_IZR, !minus_IZR in A. lra.
Qed.

(** ** C99: the tables *)
(* least and greatest step of the lightness, in 10^-6 *)
Definition cmap_steps : list (string * (Z * Z)) :=
  [("magma"%string, (75200, 489500)%Z); ("inferno"%string, (75300, 472500)%Z);
   ("plasma"%string, (256500, 400500)%Z); ("viridis"%string, (280900, 346500)%Z)].
Definition cmap_certs : list (string * certs) :=
  [("magma"%string, magma_cert); ("inferno"%string, inferno_cert); ("plasma"%string, plasma_cert); ("viridis"%string, viridis_cert)].
Lemma all_steps : forallb (fun x => match dget cmap_certs (fst x), dget cmap_steps (fst x) with
  | Ok k, Ok (lo, hi) => steps_ok lo hi (snd x) k | _, _ => false end) cmaps = true.
Proof. vm_cast_no_check (eq_refl true). Qed.
Definition comp_ok (n : Z) : bool := ((0 <=? n) && (n <=? 1000000))%Z.
Lemma all_valid : forallb (fun x => (length (snd x) =? 256)%nat && forallb (fun c => comp_ok (fst (fst c)) && comp_ok (snd (fst c)) && comp_ok (snd c)) (snd x)) cmaps = true.
Proof. vm_cast_no_check (eq_refl true). Qed.
(* every map has 256 colours, with components between 0 and 1, and along it the lightness increases with every colour,
   by the same amount up to the given bounds *)
Theorem C99_tables name c : dget cmaps name = Ok c ->
  In name ["magma"; "inferno"; "plasma"; "viridis"]%string /\
  length c = 256%nat /\
  (forall r g b, In (r, g, b) c -> 0 <= mill r <= 1 /\ 0 <= mill g <= 1 /\ 0 <= mill b <= 1) /\
  (forall d i, (S i < 256)%nat -> exists lo hi, dget cmap_steps name = Ok (lo, hi) /\
     IZR lo / 10 ^ 6 <= light_of (nth (S i) c d) - light_of (nth i c d) <= IZR hi / 10 ^ 6).
Proof.
  intros H.
  assert (I : In (name, c) cmaps).
  { revert H. generalize cmaps. intros l. induction l as [|[k v] l IH]; cbn [dget]; [discriminate|].
    destruct (String.eqb_spec k name) as [->|]; [intros E; injection E as ->; now left|right; auto]. }
  split; [|pose proof (proj1 (forallb_forall _ _) all_valid _ I) as V; pose proof (proj1 (forallb_forall _ _) all_steps _ I) as T;
           cbn [fst snd] in V, T; apply andb_prop in V as [V1 V2]; apply Nat.eqb_eq in V1; split; [exact V1|split]].
  - apply in_map with (f := fst) in I. exact I.
  - intros r g b Ic. pose proof (proj1 (forallb_forall _ _) V2 _ Ic) as P. cbn [fst snd] in P.
    apply andb_prop in P as [P P3]. apply andb_prop in P as [P1 P2]. unfold comp_ok in *.
    apply andb_prop in P1 as [A1 B1], P2 as [A2 B2], P3 as [A3 B3]. apply Z.leb_le in A1, B1, A2, B2, A3, B3.
    apply IZR_le in A1, B1, A2, B2, A3, B3. unfold mill. lra.
  - intros d i Hi. destruct (dget cmap_certs name) as [k|]; [|discriminate]. destruct (dget cmap_steps name) as [[lo hi]|]; [|discriminate].
    exists lo, hi. split; [reflexivity|]. apply (steps_ok_spec lo hi d c k T i). lia.
Qed.
(* so all colours of a map differ, and a later one is lighter *)
Theorem C99_increasing name c d : dget cmaps name = Ok c -> forall i j, (i < j < 256)%nat ->
  light_of (nth i c d) < light_of (nth j c d) /\ nth i c d <> nth j c d.
Proof.
  intros H i j Hij. destruct (C99_tables name c H) as (_ & _ & _ & S).
  assert (P : forall lo hi, dget cmap_steps name = Ok (lo, hi) -> 0 < IZR lo).
  { intros lo hi E. unfold cmap_steps in E. cbn [dget] in E.
    repeat (destruct (String.eqb _ _) in E; [injection E as <- <-; apply IZR_lt; lia|]). discriminate. }
  assert (Q : light_of (nth i c d) < light_of (nth j c d)).
  { destruct Hij as [Hij Hj]. revert Hj. induction Hij as [|j Hij IH]; intros Hj.
    - destruct (S d i Hj) as (lo & hi & E & B). specialize (P _ _ E). lra.
    - specialize (IH ltac:(lia)). destruct (S d j Hj) as (lo & hi & E & B). specialize (P _ _ E). lra. }
  split; [exact Q|]. intros E. rewrite E in Q. lra.
Qed.
Example ex_C99 : dget cmaps "viridis" = Ok viridis_data /\ nth 0 viridis_data (0, 0, 0)%Z = (267004, 4874, 329415)%Z.
Proof. split; reflexivity. Qed.

(** ** C100: the functions *)
Lemma cmap_registered name c m : dget cmaps name = Ok c -> dget (m_reg (register_all m)) name = Ok c.
Proof.
  unfold register_all. cbn [m_reg]. change cmaps with [("magma"%string, magma_data); ("inferno"%string, inferno_data); ("plasma"%string, plasma_data); ("viridis"%string, viridis_data)].
  cbn [fold_left fst snd]. rewrite !dget_dset. cbn [dget].
  rewrite (String.eqb_sym "viridis" name), (String.eqb_sym "plasma" name), (String.eqb_sym "inferno" name), (String.eqb_sym "magma" name).
  destruct (String.eqb_spec name "magma") as [->|]; [intros E; injection E as <-; reflexivity|].
  destruct (String.eqb_spec name "inferno") as [->|]; [intros E; injection E as <-; reflexivity|].
  destruct (String.eqb_spec name "plasma") as [->|]; [intros E; injection E as <-; reflexivity|].
  destruct (String.eqb_spec name "viridis") as [->|]; [intros E; injection E as <-; reflexivity|]. discriminate.
Qed.
(* Each of the four names is a function that makes the map of that name the default and that of the current image, if
   there is one, returns None and changes nothing else; whatever colormaps were registered before. *)
Theorem C100_install name : In name cmap_names -> exists f c, dget cmap_functions name = Ok f /\ dget cmaps name = Ok c /\
  forall m0 m v, m_reg m = m_reg (register_all m0) -> dget (m_rc m) "image.cmap" = Ok v ->
  exists m', f m = (Ok PNone, m') /\
    dget (m_rc m') "image.cmap" = Ok (PStr name) /\ (forall k, k <> "image.cmap"%string -> dget (m_rc m') k = dget (m_rc m) k) /\
    m_image m' = option_map (fun _ => c) (m_image m) /\ m_reg m' = m_reg m.
Proof.
  intros Hn.
  assert (F : dget cmap_functions name = Ok (install_cmap name)).
  { unfold cmap_functions. destruct Hn as [<-|[<-|[<-|[<-|[]]]]]; reflexivity. }
  assert (C : exists c, dget cmaps name = Ok c) by (destruct Hn as [<-|[<-|[<-|[<-|[]]]]]; eexists; reflexivity).
  destruct C as [c C]. exists (install_cmap name), c. split; [exact F|]. split; [exact C|]. intros m0 m v Hr Hc.
  unfold install_cmap, rc1. change ("image" ++ "." ++ "cmap")%string with "image.cmap"%string. rewrite Hc.
  assert (G : dget (m_reg m) name = Ok c) by (rewrite Hr; apply cmap_registered; exact C).
  destruct (m_image m) as [im|]; [rewrite G|]; eexists; (split; [reflexivity|]); cbn [m_rc m_image m_reg option_map];
    (split; [rewrite dget_dset; reflexivity|]); (split; [|auto]); intros k Hk; rewrite dget_dset;
    (destruct (String.eqb_spec "image.cmap" k) as [<-|]; [congruence|reflexivity]).
Qed.
(* registering changes nothing but the four names *)
Theorem C100_register m : (forall name c, dget cmaps name = Ok c -> dget (m_reg (register_all m)) name = Ok c) /\
  (forall name, ~ In name cmap_names -> dget (m_reg (register_all m)) name = dget (m_reg m) name) /\
  m_rc (register_all m) = m_rc m /\ m_image (register_all m) = m_image m.
Proof.
  split; [intros name c; apply cmap_registered|]. split; [|split; reflexivity].
  intros name Hn. unfold register_all. cbn [m_reg]. change cmaps with [("magma"%string, magma_data); ("inferno"%string, inferno_data); ("plasma"%string, plasma_data); ("viridis"%string, viridis_data)].
  cbn [fold_left fst snd]. rewrite !dget_dset. cbn [cmap_names In] in Hn.
  repeat (match goal with |- context [String.eqb ?a name] => destruct (String.eqb_spec a name); [exfalso; tauto|] end). reflexivity.
Qed.
(* a state with an image and another default *)
Example ex_C100 : let m := register_all (Mpl [("image.cmap"%string, PStr "jet"); ("image.aspect"%string, PStr "equal")] [("jet"%string, [])] (Some []) 0) in
  m_reg m = m_reg (register_all (Mpl [] [("jet"%string, [])] None 0)) /\ dget (m_rc m) "image.cmap" = Ok (PStr "jet") /\
  fst (install_cmap "plasma" m) = Ok PNone /\ m_image (snd (install_cmap "plasma" m)) = Some plasma_data.
Proof. repeat split. Qed.
Print Assumptions C99_tables.
Print Assumptions C99_increasing.
Print Assumptions C100_install.
Print Assumptions C100_register.
