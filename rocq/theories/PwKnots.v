(* allknots and addknots (npplus/pwpoly.py:593-666): facts over the reals. *)
From Coq Require Import Reals List Arith Lia Lra ZArith Bool Permutation Sorted.
From Verif Require Import Num PyBase NdArray Poly SpecPoly PolyProofs PwPoly PwBase PwDeriv.
Import ListNotations.
Local Open Scope R_scope.

(* ---- strictly increasing lists ---- *)
Lemma incr_cons a l : incr l -> (forall y, In y l -> a < y) -> incr (a :: l).
Proof.
  intros H1 H2 [|i] Hi; cbn in Hi.
  - cbn. apply H2, nth_In. lia.
  - cbn [nth]. apply H1. lia.
Qed.
Lemma incr_hd a l : incr (a :: l) -> forall y, In y l -> a < y.
Proof.
  intros H y Hy. destruct (In_nth _ _ 0 Hy) as (i & Hi & <-).
  apply (incr_lt (a :: l) 0 (S i) H). cbn; lia.
Qed.
Lemma incr_nil : incr [].
Proof. intros i Hi; cbn in Hi; lia. Qed.
Lemma incr_NoDup l : incr l -> NoDup l.
Proof.
  induction l as [|a l IH]; intros H; constructor.
  - intros Hin. pose proof (incr_hd _ _ H _ Hin). lra.
  - apply IH. eapply incr_tl; eauto.
Qed.
Lemma incr_ext l m : incr l -> incr m -> (forall x, In x l <-> In x m) -> l = m.
Proof.
  revert m; induction l as [|a l IH]; intros [|b m] Hl Hm E.
  - reflexivity.
  - destruct (proj2 (E b)); left; reflexivity.
  - destruct (proj1 (E a)); left; reflexivity.
  - assert (a = b).
    { destruct (proj1 (E a) (or_introl eq_refl)) as [->|Ha]; auto.
      destruct (proj2 (E b) (or_introl eq_refl)) as [->|Hb]; auto.
      pose proof (incr_hd _ _ Hl _ Hb). pose proof (incr_hd _ _ Hm _ Ha). lra. }
    subst b. f_equal. apply IH; try (eapply incr_tl; eauto).
    intros x; split; intros Hx.
    + destruct (proj1 (E x) (or_intror Hx)) as [->|]; auto. pose proof (incr_hd _ _ Hl _ Hx); lra.
    + destruct (proj2 (E x) (or_intror Hx)) as [->|]; auto. pose proof (incr_hd _ _ Hm _ Hx); lra.
Qed.
Lemma incr_incl_len l m : incr l -> incr m -> (forall x, In x l -> In x m) -> length m = length l -> l = m.
Proof.
  intros Hl Hm E HL. apply incr_ext; auto. intros x; split; auto.
  apply NoDup_length_incl; [apply incr_NoDup; auto|lia|exact E].
Qed.

(* ---- sort ---- *)
Lemma insert_In (x : R) l y : In y (insert x l) <-> y = x \/ In y l.
Proof.
  induction l as [|a l IH]; cbn [insert]; [cbn; intuition|].
  numR. destruct (Rleb_spec x a); cbn [In]; [intuition|]. rewrite IH. intuition.
Qed.
Lemma sort_In (l : list R) y : In y (sort l) <-> In y l.
Proof.
  unfold sort. induction l as [|a l IH]; cbn [fold_right In]; [tauto|]. rewrite insert_In, IH. intuition.
Qed.
Lemma insert_incr (x : R) l : ~ In x l -> incr l -> incr (insert x l).
Proof.
  induction l as [|a l IH]; cbn [insert]; intros Hn Hi.
  - intros i Hl; cbn in Hl; lia.
  - numR. destruct (Rleb_spec x a).
    + apply incr_cons; auto. intros y [<-|Hy].
      * destruct (Req_dec x a); [exfalso; apply Hn; left; auto|lra].
      * pose proof (incr_hd _ _ Hi _ Hy). lra.
    + apply incr_cons.
      * apply IH; [intros Hx; apply Hn; right; auto|eapply incr_tl; eauto].
      * intros y Hy. apply insert_In in Hy. destruct Hy as [->|Hy]; [lra|]. eapply incr_hd; eauto.
Qed.
Lemma sort_incr (l : list R) : NoDup l -> incr (sort l).
Proof.
  unfold sort. induction l as [|a l IH]; intros H; [apply incr_nil|]. cbn [fold_right]. apply NoDup_cons_iff in H. destruct H as (H1 & H2).
  apply insert_incr; [|apply IH; exact H2]. intros Hin. apply H1. apply (sort_In l a). exact Hin.
Qed.
Lemma sort_id (l : list R) : incr l -> sort l = l.
Proof.
  intros H. apply incr_ext; auto; [apply sort_incr, incr_NoDup, H|]. intros; apply sort_In.
Qed.
Lemma eqlist_eq (l m : list R) : eqlist l m = true <-> l = m.
Proof.
  revert m; induction l as [|a l IH]; intros [|b m]; cbn [eqlist]; try (split; [discriminate|discriminate] || (split; reflexivity)).
  numR. rewrite andb_true_iff, IH. unfold Reqb. destruct (Req_EM_T a b); split.
  - intros (_ & ->). congruence.
  - intros E; inversion E; auto.
  - intros ([=] & _).
  - intros E; inversion E; contradiction.
Qed.
Lemma eqlist_neq (l m : list R) : eqlist l m = false <-> l <> m.
Proof.
  rewrite <- eqlist_eq. destruct (eqlist l m); split; congruence.
Qed.

Lemma NoDup_app' {A} (l m : list A) : NoDup l -> NoDup m -> (forall x, In x l -> ~ In x m) -> NoDup (l ++ m).
Proof.
  induction l as [|a l IH]; intros Hl Hm Hd; [exact Hm|].
  inversion Hl; subst. cbn. constructor.
  - rewrite in_app_iff. intros [?|?]; [auto|]. apply (Hd a); auto. left; reflexivity.
  - apply IH; auto. intros x Hx. apply Hd. right; auto.
Qed.
(* ---- keep_knot ---- *)
Lemma dxs_pos l i : incr l -> (S i < length l)%nat -> 0 < dxs l i.
Proof. intros H Hi. unfold dxs. numR. pose proof (H i Hi). lra. Qed.
(* a knot that is dropped is within tol times some gap of an existing one *)
Lemma keep_false tol l y : (2 <= length l)%nat -> keep_knot tol l y = false ->
  exists i k, (i < length l)%nat /\ (S k < length l)%nat /\ Rabs (y - nth i l 0) <= tol * dxs l k.
Proof.
  intros HL H. unfold keep_knot in H. rewrite !nabs_R in H. numR. apply andb_false_iff in H.
  pose proof (ssearch_le l y).
  destruct H as [H|H]; [exists (ssearch l y - 1)%nat|exists (Nat.min (ssearch l y) (length l - 1))];
    exists (Nat.min (ssearch l y - 1) (length l - 2)); (split; [lia|]; split; [lia|]);
    match type of H with Rltb ?a ?b = false => destruct (Rltb_spec a b); [discriminate|lra] end.
Qed.
(* a knot already present is dropped *)
Lemma keep_In tol l y : 0 <= tol -> incr l -> (2 <= length l)%nat -> In y l -> keep_knot tol l y = false.
Proof.
  intros Ht Hi HL Hy. destruct (In_nth _ _ 0 Hy) as (j & Hj & <-).
  unfold keep_knot. rewrite !nabs_R. numR.
  rewrite (ssearch_unique l j _ Hi (in_piece_knot l j Hi Hj)).
  apply andb_false_iff. right. rewrite (Nat.min_l j) by lia.
  replace (nth j l 0 - nth j l 0) with 0 by ring. rewrite Rabs_R0.
  match goal with |- Rltb ?a ?b = false => destruct (Rltb_spec a b) as [L|]; [exfalso|reflexivity] end.
  pose proof (dxs_pos l (Nat.min (j - 1) (length l - 2)) Hi ltac:(lia)). nra.
Qed.

(* ---- one step of allknots ---- *)
(* xs and ys as the two knot lists, L the longer (xs if equally long) *)
Definition longer (xs ys : list R) : list R := if (length xs <? length ys)%nat then ys else xs.
Definition shorter (xs ys : list R) : list R := if (length xs <? length ys)%nat then xs else ys.
(* y is close enough to a member of l for allknots to merge them *)
Definition close_to (tol : R) (l : list R) (y : R) : Prop :=
  (exists i k, (i < length l)%nat /\ (S k < length l)%nat /\
     Rabs (y - nth i l 0) <= tol * (nth (S k) l 0 - nth k l 0)) \/
  (length l = 1%nat /\ Rabs (nth 0 l 0 - y) <= tol + tol * Rabs y).

Lemma allknots1_spec tol same xs ys : 0 <= tol -> incr xs -> incr ys ->
  (1 <= length xs)%nat -> (1 <= length ys)%nat ->
  exists same' zs, allknots1 tol (same, xs) ys = Ok (same', zs) /\ incr zs /\ (1 <= length zs)%nat /\
    (forall x, In x (longer xs ys) -> In x zs) /\
    (forall x, In x zs -> In x xs \/ In x ys) /\
    (forall y, In y (shorter xs ys) -> In y zs \/ close_to tol (longer xs ys) y) /\
    (same' = true -> same = true /\ zs = xs).
Proof.
  intros Ht Hx Hy Lx Ly. unfold allknots1. destruct (eqlist xs ys) eqn:E.
  - apply eqlist_eq in E. subst ys. exists same, xs. unfold longer, shorter. rewrite Nat.ltb_irrefl.
    repeat split; auto.
  - apply eqlist_neq in E.
    replace (if (length xs <? length ys)%nat then (ys, xs) else (xs, ys)) with (longer xs ys, shorter xs ys)
      by (unfold longer, shorter; destruct (_ <? _)%nat; reflexivity).
    set (L := longer xs ys). set (S := shorter xs ys).
    assert (HL : incr L) by (unfold L, longer; destruct (_ <? _)%nat; auto).
    assert (HS : incr S) by (unfold S, shorter; destruct (_ <? _)%nat; auto).
    assert (NL : (1 <= length L)%nat) by (unfold L, longer; destruct (_ <? _)%nat; auto).
    assert (NS : (1 <= length S <= length L)%nat).
    { unfold L, S, longer, shorter. destruct (Nat.ltb_spec (length xs) (length ys)); lia. }
    assert (IL : forall x, In x L -> In x xs \/ In x ys) by (unfold L, longer; destruct (_ <? _)%nat; auto).
    assert (IS : forall x, In x S -> In x xs \/ In x ys) by (unfold S, shorter; destruct (_ <? _)%nat; auto).
    destruct (Nat.ltb_spec 1 (length L)) as [L2|L1].
    + exists false, (sort (L ++ filter (keep_knot tol L) S)). split; [reflexivity|].
      assert (Hin : forall x, In x (sort (L ++ filter (keep_knot tol L) S)) <-> In x L \/ (In x S /\ keep_knot tol L x = true)).
      { intros x. rewrite sort_In, in_app_iff, filter_In. tauto. }
      split; [|split; [|split; [|split; [|split]]]].
      * apply sort_incr. apply NoDup_app'.
        -- apply incr_NoDup; auto.
        -- apply NoDup_filter, incr_NoDup; auto.
        -- intros x Hx1 Hx2. apply filter_In in Hx2. destruct Hx2 as (_ & Hk).
           rewrite keep_In in Hk; auto; discriminate.
      * destruct L as [|a L']; [cbn in NL; lia|].
        destruct (sort ((a :: L') ++ filter (keep_knot tol (a :: L')) S)) eqn:Es; [|cbn; lia].
        exfalso. destruct (proj2 (Hin a)). left; left; reflexivity.
      * intros x Hx1. apply Hin. auto.
      * intros x Hx1. apply Hin in Hx1. destruct Hx1 as [|(? & _)]; auto.
      * intros y Hy1. destruct (keep_knot tol L y) eqn:K; [left; apply Hin; auto|right].
        left. destruct (keep_false tol L y ltac:(lia) K) as (i & k & H1 & H2 & H3). exists i, k. auto.
      * discriminate.
    + assert (Hlen : length xs = 1%nat /\ length ys = 1%nat).
      { unfold L, longer in L1. destruct (Nat.ltb_spec (length xs) (length ys)); lia. }
      destruct xs as [|x [|x2 xs]], Hlen as (Ex & Ey); cbn in Ex; try lia.
      destruct ys as [|y [|y2 ys]]; cbn in Ey; try lia.
      unfold longer, shorter in L, S. cbn in L, S. subst L S.
      cbv iota beta. numR. rewrite !nabs_R.
      destruct (Rleb_spec (Rabs (x - y)) (tol + tol * Rabs y)) as [C|C].
      * exists same, [x]. split; [reflexivity|]. split; [auto|]. split; [cbn; lia|]. split; [auto|].
        split; [auto|]. split; [|auto]. intros z [<-|[]]. right. right. cbn. auto.
      * exists false, (sort ([x] ++ [y])). split; [reflexivity|].
        assert (x <> y) by congruence.
        assert (Hin : forall z, In z (sort ([x] ++ [y])) <-> z = x \/ z = y)
          by (intros z; rewrite sort_In; cbn; intuition).
        split; [|split; [|split; [|split; [|split]]]].
        -- apply sort_incr. constructor; [intros [?|[]]; congruence|]. constructor; [intros []|constructor].
        -- destruct (sort ([x] ++ [y])) eqn:Es; [|cbn; lia]. exfalso. destruct (proj2 (Hin x)). auto.
        -- intros z [<-|[]]. apply Hin; auto.
        -- intros z Hz. apply Hin in Hz. cbn. intuition.
        -- intros z [<-|[]]. left. apply Hin; auto.
        -- discriminate.
Qed.

(* knots pairwise equal or too far apart to be merged *)
Definition separated (tol : R) (xs ys : list R) : Prop :=
  forall y, In y (shorter xs ys) -> In y (longer xs ys) \/ ~ close_to tol (longer xs ys) y.
Lemma longer_shorter xs ys x : In x xs \/ In x ys <-> In x (longer xs ys) \/ In x (shorter xs ys).
Proof. unfold longer, shorter. destruct (_ <? _)%nat; tauto. Qed.
Lemma allknots1_exact tol same xs ys : 0 <= tol -> incr xs -> incr ys ->
  (1 <= length xs)%nat -> (1 <= length ys)%nat -> separated tol xs ys ->
  exists same' zs, allknots1 tol (same, xs) ys = Ok (same', zs) /\ incr zs /\ (1 <= length zs)%nat /\
    (forall x, In x zs <-> In x xs \/ In x ys) /\
    (same' = true -> same = true /\ zs = xs).
Proof.
  intros Ht Hx Hy Lx Ly Hs.
  destruct (allknots1_spec tol same xs ys Ht Hx Hy Lx Ly) as (s' & zs & E & Hi & Hl & H1 & H2 & H3 & H4).
  exists s', zs. repeat (split; [assumption|]). split; [|exact H4].
  intros x; split; [apply H2|]. rewrite longer_shorter. intros [H|H]; [auto|].
  destruct (H3 x H) as [|C]; auto. destruct (Hs x H); [auto|contradiction].
Qed.
(* knots of one list among those of the other *)
Lemma separated_incl tol xs ys : (forall x, In x xs -> In x ys) -> incr xs -> incr ys ->
  (length xs <= length ys)%nat -> separated tol xs ys.
Proof.
  intros H Hx Hy HL y. unfold separated, longer, shorter. destruct (Nat.ltb_spec (length xs) (length ys)).
  - intros Hy1. left. auto.
  - intros Hy1. left. rewrite (incr_incl_len xs ys); auto. lia.
Qed.

(* ---- addknots_raw ---- *)
Lemma ak_piece old new i x : incr old -> incr new -> (1 <= length new)%nat ->
  (forall y, In y old -> In y new) -> in_piece new i x -> in_piece old (ak_index old new i) x.
Proof.
  intros Ho Hn L1 Hsub (A & B & C). unfold ak_index.
  assert (Hk : forall t, (t < length old)%nat -> exists k, (k < length new)%nat /\ nth t old 0 = nth k new 0).
  { intros t Ht. destruct (In_nth new (nth t old 0) 0) as (k & Hk & E); [apply Hsub, nth_In, Ht|]. exists k; auto. }
  destruct (Nat.eqb_spec i 0) as [->|N0].
  - split; [lia|]. split; [intros; lia|]. intros j Hj. destruct (Hk j) as (k & Hk1 & ->); [lia|]. apply C. lia.
  - destruct (Nat.eqb_spec i (length new)) as [->|N1].
    + split; [lia|]. split; [|intros; lia]. intros j Hj. destruct (Hk j) as (k & Hk1 & ->); [lia|]. apply B. lia.
    + destruct i as [|i]; [lia|]. replace (S i - 1)%nat with i by lia.
      assert (Hm : nth i new 0 < mid new i < nth (S i) new 0).
      { unfold mid. numR. pose proof (Hn i ltac:(lia)). lra. }
      destruct (ssearch_piece old (mid new i) Ho) as (A' & B' & C'). split; [exact A'|]. split; intros j Hj.
      * destruct (Hk j ltac:(lia)) as (k & Hk1 & E). rewrite E. apply B.
        destruct (le_lt_dec (S i) k) as [L|L]; [|exact L].
        pose proof (B' j Hj) as H1. rewrite E in H1. pose proof (incr_le new (S i) k Hn ltac:(lia)). lra.
      * destruct (Hk j ltac:(lia)) as (k & Hk1 & E). rewrite E. apply C. split; [|lia].
        destruct (le_lt_dec (S i) k) as [L|L]; [exact L|].
        pose proof (C' j Hj) as H1. rewrite E in H1. pose proof (incr_le new k i Hn ltac:(lia)). lra.
Qed.
(* every interval of the new knots has interior points *)
Lemma piece_point new i : incr new -> (i <= length new)%nat -> exists x, in_piece new i x.
Proof.
  intros Hn Hi. destruct (le_lt_dec (length new) i).
  - exists (nth (length new - 1) new 0 + 1). split; [auto|]. split; intros j Hj; [|lia].
    pose proof (incr_le new j (length new - 1) Hn ltac:(lia)). lra.
  - exists (nth i new 0). apply in_piece_knot; auto.
Qed.
Lemma ak_le old new i : incr old -> incr new -> (1 <= length new)%nat ->
  (forall y, In y old -> In y new) -> (i <= length new)%nat -> (ak_index old new i <= length old)%nat.
Proof.
  intros Ho Hn L1 Hsub Hi. destruct (piece_point new i Hn Hi) as (x & Hx).
  apply (ak_piece old new i x Ho Hn L1 Hsub Hx).
Qed.
Lemma ak_unique old new i j x : incr old -> incr new -> (1 <= length new)%nat ->
  (forall y, In y old -> In y new) -> in_piece new i x -> in_piece old j x -> ak_index old new i = j.
Proof.
  intros Ho Hn L1 Hsub H1 H2. eapply in_piece_unique; [|exact H2]. apply ak_piece; auto.
Qed.

(* the same as rawinit_ok with the knots without the leading duplicate *)
Lemma new_short_ok cl xk (c : carr R) :
  carr_wf c -> S (length xk) = ck c -> (1 <= length xk)%nat -> incr xk ->
  (cl = Per -> (2 <= length xk)%nat /\ cons_cols xk c) ->
  exists r, new cl xk c = Ok r /\ pw_wf r /\ pcl r = cl /\ pxk0 r = nth 0 xk 0 :: xk /\
    csh (pc r) = csh c /\ ck (pc r) = ck c /\ cn (pc r) = cn c /\
    forall comp i, inb comp (csh c) -> (i < ck c)%nat -> ccol (pc r) comp i = ccol c comp i.
Proof.
  intros Hc HL Hn Hi Hp.
  assert (E : new cl xk c = rawinit cl (nth 0 xk 0 :: xk) c).
  { unfold new, rawinit. cbn [length]. destruct (Nat.eqb_spec (length xk) (ck c)); [lia|].
    rewrite HL, Nat.eqb_refl. destruct xk as [|a xk]; [cbn in Hn; lia|]. reflexivity. }
  rewrite E. apply rawinit_ok; auto.
Qed.

(* same ends, as PerPwPoly needs *)
Definition same_ends (l m : list R) : Prop :=
  nth 0 l 0 = nth 0 m 0 /\ nth (length l - 1) l 0 = nth (length m - 1) m 0.

Lemma addknots_raw_ok p xk : pw_wf p -> incr xk -> (1 <= length xk)%nat ->
  (forall y, In y (pxk p) -> In y xk) -> (pcl p = Per -> same_ends (pxk p) xk) ->
  exists r, addknots_raw p xk = Ok r /\ pw_wf r /\ pcl r = pcl p /\ pxk0 r = nth 0 xk 0 :: xk /\
    csh (pc r) = csh (pc p) /\ cn (pc r) = cn (pc p) /\
    (forall comp x, inb comp (csh (pc p)) -> base r comp x = base p comp x).
Proof.
  intros W Hn L1 Hsub Hper. pose proof (cwf_n _ (wf_c p W)) as Hcn.
  unfold addknots_raw. destruct (Nat.eqb_spec (cn (pc p)) 0) as [?|_]; [lia|].
  set (xk0 := firstn 1 xk ++ xk).
  assert (Exk0 : xk0 = nth 0 xk 0 :: xk) by (unfold xk0; destruct xk; [cbn in L1; lia|reflexivity]).
  set (c := CArr _ _ _ _).
  pose proof (wf_inc p W) as Ho. pose proof (ck_eq p W) as Hck.
  assert (Hak : forall i, (i <= length xk)%nat -> (ak_index (pxk p) xk i < ck (pc p))%nat).
  { intros i Hi. pose proof (ak_le (pxk p) xk i Ho Hn L1 Hsub Hi). lia. }
  assert (Hcols : forall comp i, inb comp (csh (pc p)) -> (i <= length xk)%nat ->
    ccol (pc p) comp (ak_index (pxk p) xk i) <> []).
  { intros comp i Hb Hi. apply wf_col_nonempty; auto. }
  assert (CW : carr_wf c).
  { split; [exact Hcn|]. intros comp i Hb Hi. cbn in *. rewrite pshift_length by (apply Hcols; auto; lia).
    apply (wf_c p W); auto. apply Hak. lia. }
  destruct (new_short_ok (pcl p) xk c CW) as (r & E & Wr & R1 & R2 & R3 & R4 & R5 & R6); auto.
  - cbn. lia.
  - intros EP. destruct (Hper EP) as (E0 & E1). destruct (wf_per p W EP) as (P1 & _ & P3).
    set (o := length (pxk p)) in *.
    assert (H01 : nth 0 (pxk p) 0 < nth (o - 1) (pxk p) 0) by (apply incr_lt; auto; unfold o in *; lia).
    assert (L2 : (2 <= length xk)%nat).
    { destruct (le_lt_dec 2 (length xk)); auto. exfalso. replace (length xk - 1)%nat with 0%nat in E1 by lia. lra. }
    split; auto. intros comp Hb. change (csh c) with (csh (pc p)) in Hb. destruct (P3 comp Hb) as (Q0 & Q1).
    assert (A0 : ak_index (pxk p) xk 0 = 0%nat) by reflexivity.
    assert (A1 : ak_index (pxk p) xk 1 = 1%nat).
    { assert (Hp : in_piece xk 1 (nth 1 xk 0)) by (apply in_piece_knot; auto).
      pose proof (ak_piece (pxk p) xk 1 (nth 1 xk 0) Ho Hn L1 Hsub Hp) as (B0 & B1 & B2).
      set (j := ak_index (pxk p) xk 1) in *.
      destruct (Nat.eq_dec j 0) as [Ej|Nj].
      - exfalso. pose proof (B2 0%nat ltac:(unfold o in *; lia)). pose proof (Hn 0%nat ltac:(lia)). lra.
      - destruct (Nat.eq_dec j 1); auto. exfalso.
        pose proof (B1 1%nat ltac:(lia)) as H1.
        destruct (In_nth xk (nth 1 (pxk p) 0) 0) as (k & Hk & Ek); [apply Hsub, nth_In; unfold o in *; lia|].
        pose proof (incr_lt (pxk p) 0 1 Ho ltac:(unfold o in *; lia)).
        destruct k as [|k]; [lra|].
        pose proof (incr_le xk 1 (S k) Hn ltac:(lia)). lra. }
    set (n := length xk) in *.
    assert (An : ak_index (pxk p) xk n = o).
    { unfold ak_index. fold n. rewrite Nat.eqb_refl. destruct (Nat.eqb_spec n 0); [lia|reflexivity]. }
    assert (An1 : ak_index (pxk p) xk (n - 1) = (o - 1)%nat).
    { assert (Hp : in_piece xk (n - 1) (nth (n - 1) xk 0)) by (apply in_piece_knot; auto; unfold n in *; lia).
      pose proof (ak_piece (pxk p) xk (n - 1) _ Ho Hn L1 Hsub Hp) as Hj.
      rewrite <- E1 in Hj. eapply in_piece_unique; [exact Hj|]. apply in_piece_knot; auto. unfold o in *; lia. }
    split.
    + cbn [c ccol]. rewrite A0, A1, Q0, Exk0. cbn [nth].
      numR. rewrite (wf_first p W). change 1%nat with (S 0). rewrite pxk0_S. reflexivity.
    + cbn [c ccol ck]. replace (n + 1 - 1)%nat with n by lia. replace (n + 1 - 2)%nat with (n - 1)%nat by lia.
      rewrite An, An1.
      replace (ck (pc p) - 1)%nat with o in Q1 by lia. replace (ck (pc p) - 2)%nat with (o - 1)%nat in Q1 by lia.
      rewrite Q1. assert (NE : ccol (pc p) comp (o - 1)%nat <> []) by (apply wf_col_nonempty; auto; lia).
      rewrite !pshift_pshift by exact NE. f_equal. rewrite Exk0. numR.
      assert (G1 : nth n (nth 0 xk 0 :: xk) 0 = nth (n - 1) xk 0)
        by (replace n with (S (n - 1)) at 1 by lia; reflexivity).
      assert (G2 : nth (n - 1) (nth 0 xk 0 :: xk) 0 = nth (n - 2) xk 0)
        by (replace (n - 1)%nat with (S (n - 2)) by lia; reflexivity).
      assert (G3 : nth o (pxk0 p) 0 = nth (o - 1) (pxk p) 0)
        by (rewrite <- pxk0_S; f_equal; lia).
      assert (G4 : nth (o - 1) (pxk0 p) 0 = nth (o - 2) (pxk p) 0)
        by (rewrite <- pxk0_S; f_equal; lia).
      rewrite G1, G2, G3, G4. fold o. fold o in E1. fold n in E1.
      rewrite E1. ring.
  - exists r. repeat (split; [assumption|]). intros comp x Hb.
    assert (Ex : pxk r = xk) by (unfold pxk; rewrite R2; reflexivity).
    assert (Hi : in_piece xk (ssearch xk x) x) by (apply ssearch_piece; auto).
    set (i := ssearch xk x) in *.
    assert (Hil : (i <= length xk)%nat) by apply Hi.
    rewrite (base_piece r comp i x) by (rewrite ?Ex; auto).
    rewrite (base_piece p comp (ak_index (pxk p) xk i) x); auto; [|apply ak_piece; auto].
    rewrite R6 by (cbn; auto; lia). cbn [c ccol].
    rewrite pshift_peval by (apply Hcols; auto). f_equal. rewrite R2, Exk0. numR. ring.
Qed.
