(* Lemmas on the model of fermi.py: masks, the polynomial evaluation, signs. *)
From Coq Require Import List Arith ZArith QArith Qreals Qminmax Bool Lia Reals Lra.
From Verif Require Import Num PyBase NdArray RSum PolySign Fermi.
Import ListNotations.
Open Scope R_scope.
Open Scope res_scope.

(** ** Polynomials *)
Definition horner (c : list R) (z : R) : R := fold_left (fun p a => p * z + a) c 0.
Lemma peval_aux r xs (h : R -> R) :
  fold_left (fun p a => map (fun y => (y + a)%K) (zipw nmul p xs)) r (map h xs) =
  map (fun z => fold_left (fun p a => p * z + a) r (h z)) xs.
Proof.
  revert h; induction r as [|a r IH]; intros h; cbn [fold_left]; [reflexivity|].
  rewrite <- (IH (fun z => h z * z + a)). f_equal. clear.
  induction xs as [|x xs IH]; cbn [map zipw]; [reflexivity|]. f_equal. exact IH.
Qed.
Lemma peval_horner c xs : (2 <= length c)%nat -> peval c xs = Ok (map (horner c) xs).
Proof.
  destruct c as [|c0 [|c1 r]]; cbn [length]; try lia. intros _. unfold peval. f_equal.
  rewrite (peval_aux r xs (fun y => (c0 * y + c1)%K)). apply map_ext. intros z.
  unfold horner. cbn [fold_left]. f_equal. numR. ring.
Qed.
(* the polynomial: the first coefficient goes with the highest power *)
Definition poly (c : list R) (z : R) : R :=
  rsum (length c) (fun i => nth i c 0 * z ^ (length c - 1 - i)).
Lemma horner_snoc c a z : horner (c ++ [a]) z = horner c z * z + a.
Proof. unfold horner. rewrite fold_left_app. reflexivity. Qed.
Lemma horner_poly c z : horner c z = poly c z.
Proof.
  induction c as [|a c IH] using rev_ind; [reflexivity|].
  rewrite horner_snoc, IH. unfold poly. rewrite app_length. cbn [length].
  rewrite Nat.add_1_r. cbn [rsum].
  rewrite app_nth2, Nat.sub_diag by lia. cbn [nth].
  replace (S (length c) - 1 - length c)%nat with 0%nat by lia. rewrite pow_O, Rmult_1_r. f_equal.
  rewrite <- rsum_scal_r. apply rsum_ext. intros i Hi. rewrite app_nth1 by auto.
  replace (S (length c) - 1 - i)%nat with (S (length c - 1 - i)) by lia. cbn [pow]. ring.
Qed.

(** ** Masks *)
Lemma compress_length {A} m (x : list A) : length m = length x ->
  length (compress m x) = length (filter (fun b => b) m).
Proof.
  revert x; induction m as [|b m IH]; intros [|a x] H; cbn in *; try lia.
  destruct b; cbn [length]; rewrite IH; lia.
Qed.
Lemma compress_map {A B} (f : A -> B) m x : compress m (map f x) = map f (compress m x).
Proof.
  revert x; induction m as [|b m IH]; intros [|a x]; cbn; auto. destruct b; cbn; rewrite IH; auto.
Qed.
(* scattering the values of f at the selected elements *)
Lemma scatter_map {A B} (P : A -> bool) (f g : A -> B) x :
  scatter (map P x) (map f (compress (map P x) x)) (map g x) =
  Ok (map (fun a => if P a then f a else g a) x).
Proof.
  induction x as [|a x IH]; [reflexivity|]. cbn [map scatter compress].
  destruct (P a); cbn [map]; rewrite IH; reflexivity.
Qed.
Lemma scatter_none {A B} (P : A -> bool) (f g : A -> B) x : length (compress (map P x) x) = 0%nat ->
  map g x = map (fun a => if P a then f a else g a) x.
Proof.
  induction x as [|a x IH]; [reflexivity|]. cbn [map compress].
  destruct (P a); cbn [length]; [discriminate|]. intros H. rewrite <- IH by auto. reflexivity.
Qed.
Lemma branch_ok {A B} (P : A -> bool) (f g : A -> B) x :
  (if (length (compress (map P x) x) =? 0)%nat then Ok (map g x)
   else scatter (map P x) (map f (compress (map P x) x)) (map g x)) =
  Ok (map (fun a => if P a then f a else g a) x).
Proof.
  destruct (Nat.eqb_spec (length (compress (map P x) x)) 0) as [E|E]; [|apply scatter_map].
  f_equal. now apply scatter_none.
Qed.
Lemma zipw_map {A B C D} (f : B -> C -> D) (g : A -> B) (h : A -> C) l :
  zipw f (map g l) (map h l) = map (fun a => f (g a) (h a)) l.
Proof. induction l as [|a l IH]; cbn; [reflexivity|]. now rewrite IH. Qed.

(* flat and unflat *)
Lemma flat_length {A} (x : nd A) : length (flat x) = size (shp x).
Proof. unfold flat. now rewrite map_length, seq_length. Qed.
Lemma flat_nth {A} (x : nd A) (d : A) k : (k < size (shp x))%nat -> nth k (flat x) d = get x (unravel (shp x) k).
Proof.
  intros H. unfold flat. rewrite (nth_indep _ d (get x (unravel (shp x) 0))) by (rewrite map_length, seq_length; auto).
  rewrite (map_nth (fun k => get x (unravel (shp x) k))), seq_nth by auto. reflexivity.
Qed.
Lemma unflat_map {A B} (d : B) (f : A -> B) (x : nd A) idx : inb idx (shp x) ->
  get (unflat d (shp x) (map f (flat x))) idx = f (get x idx).
Proof.
  intros H. unfold unflat. cbn [get]. pose proof (ravel_lt _ _ H) as L.
  rewrite (nth_indep _ d (f (get x idx))) by (rewrite map_length, flat_length; auto).
  rewrite map_nth, flat_nth by auto. now rewrite unravel_ravel.
Qed.

(** ** The templates, element by element *)
Definition fd_elem (anum aden bnum bden : list Q) (f : R -> R) (x : R) : option R :=
  if Rltb x 2 then odiv (exp x * horner (tab anum) (exp x)) (horner (tab aden) (exp x))
  else let z := 1 / (x * x) in
    odiv (sqrt x * f x * horner (tab bnum) z) (horner (tab bden) z).
Definition ifd_elem (anum aden bnum bden : list Q) (f : R -> R) (x : R) : option R :=
  if Rltb x 4 then olog (odiv (x * horner (tab anum) x) (horner (tab aden) x))
  else let z := f x in
    odiv (horner (tab bnum) z) (z * horner (tab bden) z).
Lemma tab_length c : length (tab c) = length c.
Proof. apply map_length. Qed.

Lemma fd_template_ok anum aden bnum bden f x :
  (2 <= length anum)%nat -> (2 <= length aden)%nat -> (2 <= length bnum)%nat -> (2 <= length bden)%nat ->
  exists y, fd_template anum aden bnum bden f x = Ok y /\ shp y = shp x /\
    forall idx, inb idx (shp x) -> get y idx = fd_elem anum aden bnum bden f (get x idx).
Proof.
  intros La Lb Lc Ld. rewrite <- tab_length in La, Lb, Lc, Ld. unfold fd_template. cbv zeta. set (xs := flat x).
  set (P := fun a => Rltb a 2). set (N := fun a => negb (Rltb a 2)).
  set (lo := fun a => odiv (exp a * horner (tab anum) (exp a)) (horner (tab aden) (exp a))).
  set (hi := fun a => odiv (sqrt a * f a * horner (tab bnum) (1 / (a * a))) (horner (tab bden) (1 / (a * a)))).
  rewrite (map_map P negb). change (map (fun x0 => negb (P x0)) xs) with (map N xs).
  assert (E1 : forall y, (let! p := peval (tab anum) (map exp (compress (map P xs) xs)) in
      let! q := peval (tab aden) (map exp (compress (map P xs) xs)) in
      scatter (map P xs) (zipw odiv (zipw Rmult (map exp (compress (map P xs) xs)) p) q) y) =
      scatter (map P xs) (map lo (compress (map P xs) xs)) y).
  { intros y. rewrite !peval_horner by auto. cbn [bind]. rewrite !(map_map exp), !zipw_map. reflexivity. }
  assert (E2 : forall y, (let! p := peval (tab bnum) (map (fun a => 1 / (a * a)) (compress (map N xs) xs)) in
      let! q := peval (tab bden) (map (fun a => 1 / (a * a)) (compress (map N xs) xs)) in
      scatter (map N xs) (zipw odiv (zipw Rmult (map (fun a => sqrt a * f a) (compress (map N xs) xs)) p) q) y) =
      scatter (map N xs) (map hi (compress (map N xs) xs)) y).
  { intros y. rewrite !peval_horner by auto. cbn [bind]. rewrite !(map_map (fun a => 1 / (a * a))), !zipw_map. reflexivity. }
  rewrite E1. erewrite (branch_ok P lo (fun _ => Some 0) xs). cbn [bind].
  rewrite E2. erewrite (branch_ok N hi _ xs). cbn [bind].
  eexists. split; [reflexivity|]. split; [reflexivity|]. intros idx Hi.
  unfold xs. rewrite unflat_map by auto. unfold fd_elem, N, P. destruct (Rltb (get x idx) 2); reflexivity.
Qed.
Lemma ifd_template_ok anum aden bnum bden f x :
  (2 <= length anum)%nat -> (2 <= length aden)%nat -> (2 <= length bnum)%nat -> (2 <= length bden)%nat ->
  exists y, ifd_template anum aden bnum bden f x = Ok y /\ shp y = shp x /\
    forall idx, inb idx (shp x) -> get y idx = ifd_elem anum aden bnum bden f (get x idx).
Proof.
  intros La Lb Lc Ld. rewrite <- tab_length in La, Lb, Lc, Ld. unfold ifd_template. cbv zeta. set (xs := flat x).
  set (P := fun a => Rltb a 4). set (N := fun a => negb (Rltb a 4)).
  set (lo := fun a => olog (odiv (a * horner (tab anum) a) (horner (tab aden) a))).
  set (hi := fun a => odiv (horner (tab bnum) (f a)) (f a * horner (tab bden) (f a))).
  rewrite (map_map P negb). change (map (fun x0 => negb (P x0)) xs) with (map N xs).
  assert (E1 : forall y, (let! p := peval (tab anum) (compress (map P xs) xs) in
      let! q := peval (tab aden) (compress (map P xs) xs) in
      scatter (map P xs) (map olog (zipw odiv (zipw Rmult (compress (map P xs) xs) p) q)) y) =
      scatter (map P xs) (map lo (compress (map P xs) xs)) y).
  { intros y. rewrite !peval_horner by auto. cbn [bind]. set (c := compress (map P xs) xs).
    assert (E : zipw Rmult c (map (horner (tab anum)) c) = map (fun a => a * horner (tab anum) a) c).
    { rewrite <- (map_id c) at 1. apply zipw_map. }
    rewrite E, zipw_map, map_map. reflexivity. }
  assert (E2 : forall y, (let! p := peval (tab bnum) (map f (compress (map N xs) xs)) in
      let! q := peval (tab bden) (map f (compress (map N xs) xs)) in
      scatter (map N xs) (zipw odiv p (zipw Rmult (map f (compress (map N xs) xs)) q)) y) =
      scatter (map N xs) (map hi (compress (map N xs) xs)) y).
  { intros y. rewrite !peval_horner by auto. cbn [bind]. rewrite !(map_map f), !zipw_map. reflexivity. }
  rewrite E1. erewrite (branch_ok P lo (fun _ => Some 0) xs). cbn [bind].
  rewrite E2. erewrite (branch_ok N hi _ xs). cbn [bind].
  eexists. split; [reflexivity|]. split; [reflexivity|]. intros idx Hi.
  unfold xs. rewrite unflat_map by auto. unfold ifd_elem, N, P. destruct (Rltb (get x idx) 4); reflexivity.
Qed.

(** ** Sign of a polynomial on an interval *)
Lemma horner_pos_aux c z p : 0 < z -> 0 <= p -> Forall (fun a => 0 < a) c ->
  (c <> [] \/ 0 < p) -> 0 < fold_left (fun p a => p * z + a) c p.
Proof.
  intros Hz. revert p; induction c as [|a c IH]; intros p Hp F [H|H]; cbn [fold_left]; auto; try congruence.
  - inversion F; subst. apply IH; auto; [nra|right; nra].
  - inversion F; subst. apply IH; auto; [nra|right; nra].
Qed.
Lemma horner_pos c z : 0 < z -> c <> [] -> Forall (fun a => 0 < a) c -> 0 < horner c z.
Proof. intros. apply horner_pos_aux; auto. lra. Qed.
Lemma tab_pos c : forallb (fun q => negb (Qle_bool q 0)) c = true -> Forall (fun a => 0 < a) (tab c).
Proof.
  intros H. apply Forall_forall. intros a Ha. apply in_map_iff in Ha. destruct Ha as (q & <- & Hq).
  rewrite forallb_forall in H. specialize (H q Hq). apply negb_true_iff in H.
  replace 0 with (Q2R 0) by (unfold Q2R; cbn; lra). apply Qlt_Rlt.
  apply Qnot_le_lt. intros L. apply Qle_bool_iff in L. congruence.
Qed.

(* signs on an interval, by the check of PolySign.v *)
Lemma horner_Q c z : horner (tab c) z = hornerQ c z.
Proof.
  unfold horner, hornerQ, tab. generalize 0 as p. induction c as [|q c IH]; intros p; cbn [map fold_left]; auto.
Qed.
Lemma Q2R_0 : Q2R 0 = 0.
Proof. unfold Q2R; cbn; lra. Qed.
Lemma chk_sound pos fuel c a b z : chk pos fuel c a b = true -> Q2R a <= z <= Q2R b ->
  if pos then 0 < horner (tab c) z else horner (tab c) z < 0.
Proof. rewrite horner_Q. apply chk_ok. Qed.
