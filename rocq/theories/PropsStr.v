(* C121, C122: what str(p) and repr(p) say about p. *)
From Coq Require Import String Ascii DecimalString DecimalNat Reals List Arith Lia Lra Bool.
From Verif Require Import Num PyBase NdArray NdLemmas Poly SpecPoly PwPoly PwBase PwStr PwCtor PropsPw PropsCtor.
Import ListNotations.
Local Open Scope string_scope.

(* strings of digits in front of something that is no digit *)
Definition digit (c : ascii) : bool := (48 <=? nat_of_ascii c)%nat && (nat_of_ascii c <=? 57)%nat.
Fixpoint digits (s : string) : Prop := match s with EmptyString => True | String c r => digit c = true /\ digits r end.
Definition nodigit (s : string) : Prop := match s with EmptyString => True | String c _ => digit c = false end.
Lemma digits_split s1 s2 t1 t2 : digits s1 -> digits s2 -> nodigit t1 -> nodigit t2 -> s1 ++ t1 = s2 ++ t2 -> s1 = s2 /\ t1 = t2.
Proof.
  revert s2. induction s1 as [|a s1 IH]; intros [|b s2] D1 D2 N1 N2 E; cbn in *.
  - auto.
  - subst t1. cbn in N1. destruct D2. congruence.
  - subst t2. cbn in N2. destruct D1. congruence.
  - injection E as -> E. destruct (IH s2) as [-> ->]; tauto.
Qed.
Lemma dec_digits n : digits (dec n).
Proof. unfold dec. induction (Nat.to_uint n); cbn; auto. Qed.
Lemma dec_inj m n : dec m = dec n -> m = n.
Proof.
  unfold dec. intros E. apply Unsigned.to_uint_inj. assert (X : Some (Nat.to_uint m) = Some (Nat.to_uint n)); [|injection X; auto].
  rewrite <- (NilEmpty.usu (Nat.to_uint m)), <- (NilEmpty.usu (Nat.to_uint n)), E. reflexivity.
Qed.
Lemma dec_app m n s t : nodigit s -> nodigit t -> dec m ++ s = dec n ++ t -> m = n /\ s = t.
Proof. intros Hs Ht E. destruct (digits_split _ _ _ _ (dec_digits m) (dec_digits n) Hs Ht E) as [A B]. split; [apply dec_inj, A|exact B]. Qed.
Lemma app_assoc' (a b c : string) : (a ++ b) ++ c = a ++ b ++ c.
Proof. induction a; cbn; congruence. Qed.
Lemma dec_app3 m n s t r r' : nodigit s -> nodigit t -> s <> "" -> t <> "" -> (dec m ++ s) ++ r = (dec n ++ t) ++ r' -> m = n /\ s ++ r = t ++ r'.
Proof.
  rewrite !app_assoc'. intros Hs Ht Ns Nt E. apply dec_app in E; auto; [destruct s|destruct t]; cbn in *; congruence.
Qed.
Lemma join_inj a s b t r r' : String.concat ", " (map dec (a :: s)) ++ ")" ++ r = String.concat ", " (map dec (b :: t)) ++ ")" ++ r' -> a :: s = b :: t /\ r = r'.
Proof.
  revert a b t. induction s as [|a' s IH]; intros a b [|b' t] E.
  - cbn [map String.concat] in E. apply dec_app in E as [-> E]; [|reflexivity..]. cbn in E. injection E as ->. auto.
  - change (String.concat ", " (map dec (b :: b' :: t))) with (dec b ++ ", " ++ String.concat ", " (map dec (b' :: t))) in E. cbn [map String.concat] in E.
    rewrite !app_assoc' in E. apply dec_app in E as [_ E]; [|reflexivity..]. cbn in E. discriminate.
  - change (String.concat ", " (map dec (a :: a' :: s))) with (dec a ++ ", " ++ String.concat ", " (map dec (a' :: s))) in E. cbn [map String.concat] in E.
    rewrite !app_assoc' in E. apply dec_app in E as [_ E]; [|reflexivity..]. cbn in E. discriminate.
  - change (String.concat ", " (map dec (a :: a' :: s))) with (dec a ++ ", " ++ String.concat ", " (map dec (a' :: s))) in E.
    change (String.concat ", " (map dec (b :: b' :: t))) with (dec b ++ ", " ++ String.concat ", " (map dec (b' :: t))) in E.
    rewrite !app_assoc' in E. apply dec_app in E as [-> E]; [|reflexivity..].
    change (String "," (String " " (String.concat ", " (map dec (a' :: s)) ++ ")" ++ r)) = String "," (String " " (String.concat ", " (map dec (b' :: t)) ++ ")" ++ r'))) in E.
    injection E as E. apply IH in E as [E ->]. split; [congruence|reflexivity].
Qed.
Lemma tuple_inj s t r r' : tuple_str s ++ r = tuple_str t ++ r' -> s = t /\ r = r'.
Proof.
  assert (E1 : forall a, tuple_str [a] = "(" ++ dec a ++ ",)") by reflexivity.
  assert (E2 : forall a b l, tuple_str (a :: b :: l) = "(" ++ dec a ++ ", " ++ String.concat ", " (map dec (b :: l)) ++ ")").
  { intros. change (tuple_str (a :: b :: l)) with ("(" ++ (dec a ++ ", " ++ String.concat ", " (map dec (b :: l))) ++ ")"). rewrite !app_assoc'. reflexivity. }
  assert (E3 : forall a : nat, dec a <> "").
  { unfold dec. intros a X. pose proof (NilEmpty.usu (Nat.to_uint a)) as U. rewrite X in U. injection U as U.
    pose proof (Unsigned.of_to a) as O. unfold dec in X. rewrite <- U in O. cbn in O. subst a. discriminate. }
  assert (P : forall c z, dec c ++ z <> ")" ++ r' /\ dec c ++ z <> ")" ++ r).
  { intros c z. pose proof (dec_digits c) as D. pose proof (E3 c) as N. destruct (dec c) as [|y w]; [congruence|]. cbn in D. destruct D as [D _].
    split; intros X; cbn in X; injection X as -> _; discriminate. }
  destruct s as [|a [|a' s]]; destruct t as [|b [|b' t]]; rewrite ?E1, ?E2, ?app_assoc'; intros E.
  - cbn in E. injection E as ->. auto.
  - cbn in E. injection E as E. symmetry in E. apply (proj2 (P _ _)) in E. contradiction.
  - cbn in E. injection E as E. symmetry in E. apply (proj2 (P _ _)) in E. contradiction.
  - cbn in E. injection E as E. apply (proj1 (P _ _)) in E. contradiction.
  - cbn [append] in E. injection E as E. apply dec_app in E as [-> E]; [|reflexivity..]. cbn in E. injection E as ->. auto.
  - cbn [append] in E. injection E as E. apply dec_app in E as [_ E]; [|reflexivity..]. cbn in E. discriminate.
  - cbn in E. injection E as E. apply (proj1 (P _ _)) in E. contradiction.
  - cbn [append] in E. injection E as E. apply dec_app in E as [_ E]; [|reflexivity..]. cbn in E. discriminate.
  - cbn [append] in E. injection E as E. apply dec_app in E as [-> E]; [|reflexivity..].
    change (String "," (String " " (String.concat ", " (map dec (a' :: s)) ++ ")" ++ r)) = String "," (String " " (String.concat ", " (map dec (b' :: t)) ++ ")" ++ r'))) in E.
    injection E as E. apply join_inj in E as [E ->]. split; [congruence|reflexivity].
Qed.

(* str tells the class, the number of knots, the degree and the shape, and nothing else *)
Theorem C121_str {K} : forall p q : @pwpoly K,
  pw_str p = pw_str q <-> pcl p = pcl q /\ List.length (pxk p) = List.length (pxk q) /\ pdeg p = pdeg q /\ pshape p = pshape q.
Proof.
  intros p q. split; [|intros (A & B & C & D); unfold pw_str; rewrite A, B, C, D; reflexivity].
  unfold pw_str. intros E.
  assert (H : pcl p = pcl q /\ forall r r', cls_name (pcl p) ++ r = cls_name (pcl q) ++ r' -> r = r').
  { destruct (pcl p), (pcl q); cbn in *; try discriminate; (split; [reflexivity|]); intros r r' X; inversion X; reflexivity. }
  destruct H as [Hc H]. apply H in E. split; [exact Hc|]. cbn [append] in E. injection E as E.
  apply dec_app in E as [-> E]; [|reflexivity..]. split; [reflexivity|].
  repeat (cbn [append] in E; injection E as E).
  apply dec_app in E as [-> E]; [|destruct (pshape p); reflexivity|destruct (pshape q); reflexivity]. split; [reflexivity|].
  destruct (pshape p) as [|a s]; destruct (pshape q) as [|b t]; [reflexivity|discriminate..|].
  repeat (cbn [append] in E; injection E as E). change (tuple_str (a :: s) ++ ")" = tuple_str (b :: t) ++ ")") in E. apply tuple_inj in E as [E _]. exact E.
Qed.

(* the text read part by part: a numeral s stands for the number n *)
Definition numeral (s : string) (n : nat) : Prop := option_map Nat.of_uint (NilEmpty.uint_of_string s) = Some n.
(* a tuple of ints: one entry followed by a comma, or entries with commas between them *)
Inductive tuple_text : string -> list nat -> Prop :=
| tuple_one s n : numeral s n -> tuple_text ("(" ++ s ++ ",)") [n]
| tuple_more l ns : Forall2 numeral l ns -> List.length ns <> 1%nat -> tuple_text ("(" ++ String.concat ", " l ++ ")") ns.
Lemma dec_numeral n : numeral (dec n) n.
Proof. unfold numeral, dec. rewrite NilEmpty.usu. cbn. rewrite Unsigned.of_to. reflexivity. Qed.
Theorem C121_str_reads {K} : forall p : @pwpoly K, exists N D S,
  pw_str p = match pcl p with Pw => "PwPoly" | Per => "PerPwPoly" end ++ "(" ++ N ++ " knots, degree " ++ D ++ S ++ ")" /\
  numeral N (List.length (pxk p)) /\ numeral D (pdeg p) /\
  (pshape p = [] -> S = "") /\ (pshape p <> [] -> exists T, S = ", shape=" ++ T /\ tuple_text T (pshape p)).
Proof.
  intros p. exists (dec (List.length (pxk p))), (dec (pdeg p)), (match pshape p with [] => "" | s => ", shape=" ++ tuple_str s end).
  split; [reflexivity|]. split; [apply dec_numeral|]. split; [apply dec_numeral|].
  destruct (pshape p) as [|a s]; (split; [congruence|]); [congruence|]. intros _. exists (tuple_str (a :: s)). split; [reflexivity|].
  destruct s as [|b s]; [apply tuple_one, dec_numeral|]. apply (tuple_more (map dec (a :: b :: s))); [|cbn; lia].
  generalize (a :: b :: s). intros l. induction l; constructor; [apply dec_numeral|assumption].
Qed.

Lemma substring_app a b : substring (String.length a) (String.length b) (a ++ b) = b.
Proof. induction a as [|x a IH]; cbn; [|exact IH]. induction b as [|y b IH]; cbn; congruence. Qed.
Lemma substring_pre b z : substring 0 (String.length b) (b ++ z) = b.
Proof. induction b as [|y b IH]; cbn; [destruct z; reflexivity|congruence]. Qed.
Lemma length_app (a b : string) : String.length (a ++ b) = (String.length a + String.length b)%nat.
Proof. induction a; cbn; congruence. Qed.
(* repr puts the two texts between the parentheses of array(...) behind the class name *)
Theorem C121_repr_text {K} : forall (rx : list K -> string) (rc : @carr K -> string) (p : @pwpoly K) X C,
  rx (pxk p) = "array(" ++ X ++ ")" -> rc (pc p) = "array(" ++ C ++ ")" ->
  pw_repr rx rc p = cls_name (pcl p) ++ "(" ++ X ++ ", " ++ C ++ ")".
Proof.
  intros rx rc p X C HX HC. unfold pw_repr. rewrite HX, HC.
  assert (S : forall b, strip ("array(" ++ b ++ ")") = b).
  { intros b. unfold strip. rewrite !length_app. cbn [String.length]. replace (6 + (String.length b + 1) - 7)%nat with (String.length b) by lia.
    change (substring 6 (String.length b) ("array(" ++ b ++ ")")) with (substring 0 (String.length b) (b ++ ")")). apply substring_pre. }
  rewrite !S. reflexivity.
Qed.
(* an ADict prints as a call of ADict *)
Theorem C121_adict : forall s t, adict_repr s = adict_repr t -> s = t.
Proof.
  unfold adict_repr. intros s t E. cbn in E. injection E as E.
  revert t E. induction s as [|a s IH]; intros [|b t] E; cbn in E; [reflexivity| | |].
  - destruct t; discriminate.
  - destruct s; discriminate.
  - injection E as -> E. f_equal. apply IH, E.
Qed.

Local Open Scope R_scope.
(* The text repr(p) evaluates to another function: of degree 0, with one more axis.  Component k::comp holds the k-th
   coefficient of p on the piece of x. *)
Theorem C122_repr_refuted : forall inv (p : pwpoly R), pw_wf p -> size (pshape p) <> 0%nat ->
  exists r, repr_eval inv p = Ok r /\ pw_wf r /\ pdeg r = 0%nat /\ pshape r = cn (pc p) :: pshape p /\ pshape r <> pshape p /\
    (pcl p = Pw -> forall k comp x i, (k < cn (pc p))%nat -> inb comp (pshape p) -> in_piece (pxk p) i x ->
       pw_call r (k :: comp) x = Ok (nth k (ccol (pc p) comp i) 0)).
Proof.
  intros inv p W Hs. pose proof (wf_inc p W) as Hi. pose proof (wf_nk p W) as Hn. pose proof (ck_eq p W) as HK. pose proof (cwf_n _ (wf_c p W)) as HN.
  unfold repr_eval, ctor. numR. rewrite (incr_not_decr _ Hi). cbn [andb rev app yn ysh].
  destruct (Nat.eqb_spec (ck (pc p) + 1) (List.length (pxk p))); [lia|].
  cbn [uniform forallb negb yn ysh List.length Nat.sub].
  destruct (Nat.eqb_spec (List.length (pxk p)) 0); [lia|]. rewrite size_snoc.
  destruct (Nat.eqb_spec (size (cn (pc p) :: csh (pc p)) * ck (pc p)) 0) as [Z|_].
  { exfalso. unfold pshape in Hs. unfold size in Hs, Z. cbn [fold_right] in Z. nia. }
  cbn [orb]. destruct (Nat.eqb_spec (ck (pc p)) (List.length (pxk p) + 1)) as [_|]; [|lia].
  match goal with |- context [rawinit (pcl p) (pxk p) ?c] => set (cc := c) end.
  destruct (rawinit_short (pcl p) (pxk p) cc) as (r & E & Wr & R1 & R2 & R3 & R4 & R5 & _ & R7); auto; try lia.
  - split; cbn; [lia|]. intros; reflexivity.
  - intros P. apply (wf_per p W P).
  - exists r. split; [exact E|]. split; [exact Wr|]. split; [unfold pdeg; rewrite R5; reflexivity|].
    unfold pshape. rewrite R3. cbn [cc csh]. split; [reflexivity|]. split.
    + intros X. apply (f_equal (@List.length nat)) in X. cbn in X. lia.
    + intros P k comp x i Hk Hb Hp. specialize (R7 P). assert (P' : pcl r = Pw) by congruence.
      rewrite pw_call_wf, pw_val_base, pw_reduce_Pw by auto. f_equal.
      rewrite (base_piece r _ i); [|apply Wr|rewrite R2; auto]. rewrite R7. unfold cc, peval. cbn [ccol map yval psum hd tl]. ring.
Qed.
(* With one argument for each coefficient, PwPoly(xk, *c), the constructor gives the function back. *)
Theorem C122_repr_partial : forall inv (p : pwpoly R), pw_wf p -> size (pshape p) <> 0%nat ->
  exists r, repr_star inv p = Ok r /\ pw_wf r /\ pcl r = pcl p /\ pxk r = pxk p /\ pdeg r = pdeg p /\ pshape r = pshape p /\
    forall comp x, inb comp (pshape p) -> pw_call r comp x = pw_call p comp x.
Proof.
  intros inv p W Hs. pose proof (wf_inc p W) as Hi. pose proof (wf_nk p W) as Hn. pose proof (ck_eq p W) as HK. pose proof (cwf_n _ (wf_c p W)) as HN.
  unfold repr_star, ctor. numR. rewrite (incr_not_decr _ Hi). cbn [andb].
  set (ya := fun n : nat => YArr (csh (pc p)) (ck (pc p)) (fun comp i => nth n (ccol (pc p) comp i) 0)).
  assert (UA : uniform (map ya (seq 0 (cn (pc p)))) = true).
  { apply (uniform_Forall _ (csh (pc p)) (ck (pc p))). apply Forall_forall. intros a Ha. apply in_map_iff in Ha as (k & <- & _). split; reflexivity. }
  destruct (rev (map ya (seq 0 (cn (pc p))))) as [|az ra] eqn:ER.
  { apply (f_equal (@List.length _)) in ER. rewrite rev_length, map_length, seq_length in ER. cbn in ER. lia. }
  assert (Hz : yn az = ck (pc p)).
  { assert (I : In az (rev (map ya (seq 0 (cn (pc p)))))) by (rewrite ER; left; reflexivity). apply in_rev, in_map_iff in I as (k & <- & _). reflexivity. }
  rewrite Hz. destruct (Nat.eqb_spec (ck (pc p) + 1) (List.length (pxk p))); [lia|]. rewrite UA. cbn [negb].
  destruct (map ya (seq 0 (cn (pc p)))) as [|a0 ar] eqn:EA.
  { apply (f_equal (@List.length _)) in EA. rewrite map_length, seq_length in EA. cbn in EA. lia. }
  assert (H0 : ysh a0 = csh (pc p) /\ yn a0 = ck (pc p)).
  { assert (I : In a0 (map ya (seq 0 (cn (pc p))))) by (rewrite EA; left; reflexivity). apply in_map_iff in I as (k & <- & _). split; reflexivity. }
  destruct H0 as [H0 H0']. rewrite H0, H0'.
  destruct (Nat.eqb_spec (List.length (pxk p)) 0); [lia|]. rewrite size_snoc.
  destruct (Nat.eqb_spec (size (csh (pc p)) * ck (pc p)) 0) as [Z|_]; [exfalso; unfold pshape in Hs; nia|].
  cbn [orb]. destruct (Nat.eqb_spec (ck (pc p)) (List.length (pxk p) + 1)) as [_|]; [|lia].
  rewrite <- EA, map_length, seq_length.
  match goal with |- context [rawinit (pcl p) (pxk p) ?c] => set (cc := c) end.
  assert (HC : forall comp i, inb comp (csh (pc p)) -> (i < ck (pc p))%nat -> ccol cc comp i = ccol (pc p) comp i).
  { intros comp i Hb Hk. cbn [cc ccol]. rewrite map_map. cbn [ya yval]. rewrite <- (cwf_col _ (wf_c p W) comp i) by auto.
    generalize (ccol (pc p) comp i). intros l. apply nth_ext with (d := 0) (d' := 0); rewrite map_length, seq_length; [reflexivity|].
    intros k Hk'. rewrite (nth_indep _ 0 (nth 0 l 0)) by (rewrite map_length, seq_length; exact Hk'). rewrite (map_nth (fun k => nth k l 0)), seq_nth by exact Hk'. reflexivity. }
  destruct (rawinit_short (pcl p) (pxk p) cc) as (r & E & Wr & R1 & R2 & R3 & R4 & R5 & R6 & R7); auto; try lia.
  - split; cbn; [lia|]. intros; rewrite !map_length, seq_length; reflexivity.
  - intros P. apply (wf_per p W P).
  - exists r. split; [exact E|]. split; [exact Wr|]. split; [exact R1|]. split; [exact R2|]. split; [unfold pdeg; rewrite R5; reflexivity|].
    split; [unfold pshape; rewrite R3; reflexivity|]. intros comp x Hb.
    assert (CC : forall i, (i <= List.length (pxk p))%nat -> ccol (pc r) comp i = ccol (pc p) comp i).
    { intros i Hl. destruct (pcl p) eqn:P; [rewrite R7 by reflexivity; apply HC; [exact Hb|lia]|].
      destruct (wf_per p W P) as (L2 & _ & Cp). destruct (wf_per r Wr R1) as (_ & _ & Cr).
      assert (IN : forall j, (1 <= j < List.length (pxk p))%nat -> ccol (pc r) comp j = ccol (pc p) comp j).
      { intros j Hj. rewrite R6; [apply HC; [exact Hb|lia]|exact Hb|exact Hj]. }
      destruct (Cp comp Hb) as [P0 P1]. destruct (Cr comp) as [Q0 Q1]; [rewrite R3; exact Hb|]. rewrite R4 in Q1. cbn [cc ck] in Q1. rewrite R2 in Q1.
      destruct (Nat.eq_dec i 0) as [->|]; [rewrite P0, Q0; apply IN; lia|].
      destruct (Nat.eq_dec i (List.length (pxk p))) as [->|]; [|apply IN; lia].
      replace (List.length (pxk p)) with (ck (pc p) - 1)%nat by lia. rewrite P1, Q1. f_equal. apply IN. lia. }
    rewrite !pw_call_wf by assumption. f_equal. rewrite !pw_val_base.
    assert (RD : pw_reduce r x = pw_reduce p x).
    { unfold pw_reduce. rewrite R1, R2. destruct (pcl p) eqn:P; [reflexivity|].
      destruct (wf_per p W P) as (_ & -> & _). destruct (wf_per r Wr R1) as (_ & -> & _). rewrite R2. reflexivity. }
    rewrite RD. generalize (pw_reduce p x). intros y. unfold base. rewrite R2. rewrite CC by apply ssearch_le. f_equal. f_equal.
    destruct (ssearch (pxk p) y); [rewrite (wf_first p W), (wf_first r Wr), R2; reflexivity|]. rewrite !pxk0_S, R2. reflexivity.
Qed.

(* a function with two components *)
Definition ex_two_comp : pwpoly R := PwP Per [0; 0; 1; 3] (CArr 2 [2%nat] 4 (fun comp i => if (i =? 3)%nat then pshift [INR (hd O comp); 2] 2 else [INR (hd O comp); 2])) (Some 3).
Example C121_str_case : pw_str ex_two_comp = "PerPwPoly(3 knots, degree 1, shape=(2,))"%string /\ pw_str ex_p <> pw_str ex_two_comp /\
  pw_repr (fun _ => "array([0., 1., 3.])"%string) (fun _ => "array([[[0., 0., 0., 4.], ...]])"%string) ex_two_comp
    = "PerPwPoly([0., 1., 3.], [[[0., 0., 0., 4.], ...]])"%string.
Proof. split; [reflexivity|]. split; [|reflexivity]. intros E. apply C121_str in E as (E & _). discriminate. Qed.
Example C122_repr_case : exists r s, repr_eval inv_wit ex_p = Ok r /\ repr_star inv_wit ex_p = Ok s /\
  pshape r = [cn (pc ex_p)] /\ pw_call s [] (1/2) = Ok (1/2).
Proof.
  destruct (C122_repr_refuted inv_wit ex_p ex_p_wf) as (r & E & _ & _ & S & _); [cbn; lia|].
  destruct (C122_repr_partial inv_wit ex_p ex_p_wf) as (s & E' & _ & _ & _ & _ & _ & H); [cbn; lia|].
  exists r, s. split; [exact E|]. split; [exact E'|]. split; [exact S|]. rewrite H by constructor. apply C30_case.
Qed.
Print Assumptions C121_str.
Print Assumptions C121_str_reads.
Print Assumptions C121_repr_text.
Print Assumptions C121_adict.
Print Assumptions C122_repr_refuted.
Print Assumptions C122_repr_partial.
