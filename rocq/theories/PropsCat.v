(* Properties C05-C07: cat_ and a_. *)
From Coq Require Import String List Arith ZArith QArith Lia Bool.
From Verif Require Import Num PyBase NdArray NdLemmas Basic BasicProofs PropsBasic.
Import ListNotations.
Local Open Scope nat_scope.

(* the keyword part of a call: nothing, or axis=z *)
Definition kw_axis (kw : list (string * Z)) (z : Z) : Prop :=
  (kw = [] /\ z = 0%Z) \/ kw = [("axis"%string, z)].
(* n is the largest rank, but at least lo *)
Definition is_rank {K} (lo : nat) (args : list (arg K)) (n : nat) : Prop :=
  lo <= n /\ (forall a, In a args -> length (shp (aarr a)) <= n) /\
  (n = lo \/ exists a, In a args /\ length (shp (aarr a)) = n).
(* T is the shape all arguments broadcast to on the axes in [ax]; an axis of
   length 0 must not be mixed with axes of length 1 *)
Definition common {K} (n : nat) (ax : nat -> Prop) (args : list (arg K)) (T : list nat) : Prop :=
  length T = n /\
  forall m, m < n -> ax m ->
    (forall a, In a args -> adim n (shp (aarr a)) m = nth m T 0 \/
                            (adim n (shp (aarr a)) m = 1 /\ nth m T 0 <> 0)) /\
    exists a, In a args /\ adim n (shp (aarr a)) m = nth m T 0.
Definition numeric {K} (args : list (arg K)) : Prop := forall a, In a args -> anum a = true.

Lemma kw_axis_get kw z : kw_axis kw z -> get_axis kw = Ok z.
Proof. intros [[-> ->]| ->]; reflexivity. Qed.

Section P.
  Context {K : Type} {NK : Num K}.
  Implicit Type args : list (arg K).

  Lemma numeric_forallb args : numeric args -> forallb anum args = true.
  Proof. intros H. apply forallb_forall. exact H. Qed.
  Lemma fold_max_char l b n : b <= n -> (forall x, In x l -> x <= n) -> (n = b \/ In n l) ->
    fold_left Nat.max l b = n.
  Proof.
    revert b; induction l as [|a l IH]; cbn; intros b Hb Hl He.
    - destruct He as [->|[]]; auto.
    - apply IH; auto. 
      + pose proof (Hl a (or_introl eq_refl)). lia.
      + pose proof (Hl a (or_introl eq_refl)).
        destruct He as [->|[->|He]]; auto; left; lia.
  Qed.
  Lemma first_pass_rank lo args n : args <> [] -> numeric args -> is_rank lo args n ->
    exists n', first_pass args = Ok n' /\ Nat.max lo n' = n.
  Proof.
    intros Hne Hnum (H1 & H2 & H3). unfold first_pass. rewrite numeric_forallb by auto.
    destruct args as [|a0 args]; [congruence|]. eexists. split; [reflexivity|].
    set (l := map _ _).
    assert (Hl : forall x, In x l -> x <= n).
    { intros x Hx. apply in_map_iff in Hx as (a & <- & Ha). apply H2; auto. }
    assert (E : exists v, fold_left Nat.max l 0 = v /\ v <= n /\ (n = lo \/ v = n)).
    { eexists. split; [reflexivity|]. split.
      - clearbody l. assert (B : forall b, b <= n -> fold_left Nat.max l b <= n).
        { induction l as [|x l IH]; cbn; auto. intros b Hb. apply IH; [intros; apply Hl; right; auto|].
          pose proof (Hl x (or_introl eq_refl)). lia. }
        apply B. lia.
      - destruct H3 as [->|(a & Ha & E)]; [auto|right].
        apply fold_max_char; [lia|auto|right]. apply in_map_iff. exists a. auto. }
    destruct E as (v & -> & Hv & [->| ->]); lia.
  Qed.
  Lemma combine_map {A B C} (f : A -> B) (g : A -> C) l :
    combine (map f l) (map g l) = map (fun x => (f x, g x)) l.
  Proof. induction l; cbn; congruence. Qed.
  Lemma maxn_const {A} (f : A -> nat) l c : l <> [] -> (forall x, In x l -> f x = c) -> maxn (map f l) = c.
  Proof.
    intros Hl H. apply Nat.le_antisymm.
    - apply maxn_lub. intros x Hx. apply in_map_iff in Hx as (a & <- & Ha). rewrite H; auto.
    - destruct l as [|a l]; [congruence|]. apply maxn_ge. left. apply H. left; auto.
  Qed.
  Lemma maxn_map_ext {A} (f g : A -> nat) l : (forall x, In x l -> f x = g x) -> maxn (map f l) = maxn (map g l).
  Proof. intros H. f_equal. apply map_ext_in. exact H. Qed.

  (* the code after the checks *)
  Definition alen n k (a : arg K) : nat := adim n (shp (aarr a)) k.
  Definition cat_region n k args : list nat :=
    max_shape n (map (upd k (list_sum (map (alen n k) args))) (map (fun a => pad1 n (shp (aarr a))) args)).
  Lemma cat_unfold args kw z n k : kw_axis kw z -> args <> [] -> numeric args -> is_rank 1 args n ->
    axis_is n z k ->
    cat_ args kw = cat_fill k 0 (map (fun a => (alen n k a, aarr a)) args) (full (cat_region n k args) n0).
  Proof.
    intros Hkw Hne Hnum Hr Hax. unfold cat_. rewrite (kw_axis_get _ _ Hkw). cbn [bind].
    destruct (first_pass_rank 1 args n Hne Hnum Hr) as (n' & -> & En). cbn [bind]. rewrite En.
    rewrite (axis_is_index _ _ _ Hax). destruct Hax as [Hk _].
    assert (El : map (fun s => nth k s 0) (map (fun a => pad1 n (shp (aarr a))) args) = map (alen n k) args).
    { rewrite map_map. apply map_ext_in. intros a Ha. apply adim_pad; auto. }
    rewrite El, combine_map. reflexivity.
  Qed.
  Lemma cat_region_length n k args : length (cat_region n k args) = n.
  Proof. apply max_shape_length. Qed.
  Lemma cat_region_other n k args m : (forall a, In a args -> length (shp (aarr a)) <= n) ->
    m < n -> m <> k -> nth m (cat_region n k args) 0 = maxn (map (alen n m) args).
  Proof.
    intros Hr Hm Hne. unfold cat_region. rewrite max_shape_nth by auto. rewrite !map_map.
    apply maxn_map_ext. intros a Ha. rewrite nth_upd_neq by auto. apply adim_pad; auto.
  Qed.
  Lemma cat_region_k n k args : (forall a, In a args -> length (shp (aarr a)) <= n) -> args <> [] ->
    k < n -> nth k (cat_region n k args) 0 = list_sum (map (alen n k) args).
  Proof.
    intros Hr Hne Hk. unfold cat_region. rewrite max_shape_nth by auto. rewrite !map_map.
    apply maxn_const; auto. intros a Ha. rewrite nth_upd_eq; auto. rewrite pad1_length; auto.
  Qed.
  Lemma cat_bto n k args a : (forall a, In a args -> length (shp (aarr a)) <= n) -> k < n -> In a args ->
    (bto (shp (aarr a)) (upd k (alen n k a) (cat_region n k args)) = true <->
     forall m, m < n -> m <> k -> alen n m a = maxn (map (alen n m) args) \/ alen n m a = 1).
  Proof.
    intros Hr Hk Ha. rewrite (bto_adim n) by (auto; rewrite upd_length; apply cat_region_length).
    split.
    - intros H m Hm Hne. specialize (H m Hm). rewrite nth_upd_neq in H by auto.
      rewrite cat_region_other in H by auto. exact H.
    - intros H m Hm. destruct (Nat.eq_dec m k) as [->|Hne].
      + left. rewrite nth_upd_eq; auto. rewrite cat_region_length; auto.
      + rewrite nth_upd_neq by auto. rewrite cat_region_other by auto. apply H; auto.
  Qed.
  Lemma common_max n ax args T m : common n ax args T -> m < n -> ax m -> maxn (map (alen n m) args) = nth m T 0.
  Proof.
    intros (_ & H) Hm Hx. destruct (H m Hm Hx) as (H1 & a & Ha & He). apply Nat.le_antisymm.
    - apply maxn_lub. intros x Hx'. apply in_map_iff in Hx' as (b & <- & Hb).
      unfold alen. destruct (H1 b Hb) as [->|[-> ?]]; lia.
    - rewrite <- He. apply maxn_ge. apply in_map_iff. exists a. auto.
  Qed.

  Theorem C05_cat args kw z n k T :
    kw_axis kw z -> args <> [] -> numeric args -> is_rank 1 args n -> axis_is n z k ->
    common n (fun m => m <> k) args T ->
    exists r, cat_ args kw = Ok r /\
      shp r = upd k (list_sum (map (fun a => adim n (shp (aarr a)) k) args)) T /\
      forall args1 a args2, args = args1 ++ a :: args2 ->
        forall idx, inb idx (upd k (adim n (shp (aarr a)) k) T) ->
          get r (upd k (list_sum (map (fun a => adim n (shp (aarr a)) k) args1) + nth k idx 0) idx)
          = bget (aarr a) idx.
  Proof.
    intros Hkw Hne Hnum Hr Hax Hc. rewrite (cat_unfold args kw z n k) by auto.
    destruct Hr as (_ & Hr & _). destruct Hax as [Hk _]. pose proof Hc as [HT Hc'].
    assert (ER : cat_region n k args = upd k (list_sum (map (alen n k) args)) T).
    { apply nth_ext with (d:=0) (d':=0); [rewrite upd_length, cat_region_length; auto|].
      rewrite cat_region_length. intros m Hm. destruct (Nat.eq_dec m k) as [->|Hmk].
      - rewrite nth_upd_eq by lia. apply cat_region_k; auto.
      - rewrite nth_upd_neq by auto. rewrite cat_region_other by auto. eapply common_max; eauto. }
    destruct (cat_fill_ok k (map (fun a => (alen n k a, aarr a)) args) 0 (full (cat_region n k args) n0))
      as (r & E & Sr & _ & G).
    - cbn. rewrite cat_region_length. auto.
    - intros di b Hin. apply in_map_iff in Hin as (a & Ea & Ha). injection Ea as <- <-. cbn [shp full].
      apply cat_bto; auto. intros m Hm Hmk. rewrite (common_max n _ args T) by eauto.
      destruct (Hc' m Hm Hmk) as [H _]. destruct (H a Ha) as [H'|[H' _]]; auto.
    - exists r. split; [exact E|]. cbn [shp full] in Sr. rewrite Sr, ER. split; [reflexivity|].
      intros args1 a args2 -> idx Hi. specialize (G (map (fun a => (alen n k a, aarr a)) args1) (alen n k a) (aarr a)
        (map (fun a => (alen n k a, aarr a)) args2) idx).
      rewrite map_app in G. specialize (G eq_refl). rewrite map_map in G. cbn [fst] in G.
      apply G.
      + cbn [shp full]. rewrite cat_region_length, (inb_length _ _ Hi), upd_length. auto.
      + pose proof (inb_nth _ _ k Hi) as H. rewrite upd_length, nth_upd_eq in H by lia. apply H. lia.
  Qed.

  (* --- a_ ------------------------------------------------------------------ *)
  Definition stack_region n args : list nat := max_shape n (map (fun a => pad1 n (shp (aarr a))) args).
  Lemma stack_region_length n args : length (stack_region n args) = n.
  Proof. apply max_shape_length. Qed.
  Lemma stack_unfold args kw z n k : kw_axis kw z -> args <> [] -> numeric args -> is_rank 0 args n ->
    axis_is (S n) z k ->
    a_ args kw = stack_fill k 0 (map (fun a => aarr a) args) (full (insert_at k (length args) (stack_region n args)) n0).
  Proof.
    intros Hkw Hne Hnum Hr Hax. unfold a_. rewrite (kw_axis_get _ _ Hkw). cbn [bind].
    destruct (first_pass_rank 0 args n Hne Hnum Hr) as (n' & -> & En). cbn [bind].
    replace n' with n by lia. clear n' En.
    destruct Hax as [Hk Hz].
    assert (C : ((z <? - Z.of_nat n - 1) || (Z.of_nat n <? z) && (0 <? n)%nat)%Z = false).
    { apply orb_false_iff. split; [apply Z.ltb_ge; lia|]. apply andb_false_iff. left. apply Z.ltb_ge. lia. }
    rewrite C.
    assert (Ek : Nat.min (Z.to_nat (if (z <? 0)%Z then (Z.of_nat n + 1 + z)%Z else z)) n = k).
    { destruct (Z.ltb_spec z 0); lia. }
    rewrite Ek. fold (stack_region n args). rewrite insert_firstn by (rewrite stack_region_length; lia). reflexivity.
  Qed.
  Lemma stack_region_nth n args m : (forall a, In a args -> length (shp (aarr a)) <= n) ->
    m < n -> nth m (stack_region n args) 0 = maxn (map (alen n m) args).
  Proof.
    intros Hr Hm. unfold stack_region. rewrite max_shape_nth by auto. rewrite !map_map.
    apply maxn_map_ext. intros a Ha. apply adim_pad; auto.
  Qed.
  Lemma stack_bto n args a : (forall a, In a args -> length (shp (aarr a)) <= n) -> In a args ->
    (bto (shp (aarr a)) (stack_region n args) = true <->
     forall m, m < n -> alen n m a = maxn (map (alen n m) args) \/ alen n m a = 1).
  Proof.
    intros Hr Ha. rewrite (bto_adim n) by (auto; apply stack_region_length).
    split; intros H m Hm; specialize (H m Hm); rewrite stack_region_nth in * by auto; exact H.
  Qed.
  Theorem C06_stack args kw z n k T :
    kw_axis kw z -> args <> [] -> numeric args -> is_rank 0 args n -> axis_is (S n) z k ->
    common n (fun _ => True) args T ->
    exists r, a_ args kw = Ok r /\ shp r = insert_at k (length args) T /\
      forall j d, j < length args -> forall idx, inb idx T ->
        get r (insert_at k j idx) = bget (aarr (nth j args d)) idx.
  Proof.
    intros Hkw Hne Hnum Hr Hax Hc. rewrite (stack_unfold args kw z n k) by auto.
    destruct Hr as (_ & Hr & _). destruct Hax as [Hk _]. pose proof Hc as [HT Hc'].
    assert (ER : stack_region n args = T).
    { apply nth_ext with (d:=0) (d':=0); [rewrite stack_region_length; auto|].
      rewrite stack_region_length. intros m Hm. rewrite stack_region_nth by auto.
      apply (common_max n (fun _ => True)); auto. }
    destruct (stack_fill_ok k (map (fun a => aarr a) args) 0 (full (insert_at k (length args) (stack_region n args)) n0))
      as (r & E & Sr & _ & G).
    - cbn [shp full]. intros b Hb. apply in_map_iff in Hb as (a & <- & Ha).
      rewrite remove_insert by (rewrite stack_region_length; lia).
      apply stack_bto; auto. intros m Hm. rewrite (common_max n (fun _ => True) args T) by auto.
      destruct (Hc' m Hm I) as [H _]. destruct (H a Ha) as [H'|[H' _]]; auto.
    - exists r. split; [exact E|]. cbn [shp full] in Sr. rewrite Sr, ER. split; [reflexivity|].
      intros j d Hj idx Hi. specialize (G j (aarr d) idx).
      rewrite (map_nth (fun a => aarr a)) in G. apply G.
      + rewrite map_length. auto.
      + rewrite (inb_length _ _ Hi). lia.
  Qed.

  (* --- C07: what is rejected, what is accepted ------------------------------ *)
  Lemma pop_axis_left kw s z : In (s, z) kw -> s <> "axis"%string -> exists o l, pop_axis kw = (o, l) /\ l <> [].
  Proof.
    induction kw as [|[s' z'] kw IH]; cbn; [tauto|]. intros Hi Hs.
    destruct (String.eqb_spec s' "axis").
    - exists (Some z'), kw. split; auto. destruct Hi as [Hi|Hi]; [congruence|]. intros ->; destruct Hi.
    - destruct (pop_axis kw) as [o l]. exists o, ((s', z') :: l). split; auto. discriminate.
  Qed.
  Theorem C07_unknown_keyword args kw s z : In (s, z) kw -> s <> "axis"%string ->
    cat_ args kw = Err TypeError /\ a_ args kw = Err TypeError.
  Proof.
    intros Hi Hs. destruct (pop_axis_left kw s z Hi Hs) as (o & l & E & Hl).
    assert (G : get_axis kw = Err TypeError).
    { unfold get_axis. rewrite E. destruct l; [congruence|reflexivity]. }
    unfold cat_, a_. rewrite G. split; reflexivity.
  Qed.
  Theorem C07_non_numeric args kw z a : kw_axis kw z -> In a args -> anum a = false ->
    cat_ args kw = Err ValueError /\ a_ args kw = Err ValueError.
  Proof.
    intros Hkw Ha Hn. assert (E : first_pass args = Err ValueError).
    { unfold first_pass. replace (forallb anum args) with false; auto.
      symmetry. destruct (forallb anum args) eqn:F; auto.
      rewrite forallb_forall in F. rewrite F in Hn; auto. }
    unfold cat_, a_. rewrite (kw_axis_get _ _ Hkw). cbn [bind]. rewrite E. split; reflexivity.
  Qed.
  Theorem C07_bad_axis args kw z n : kw_axis kw z -> args <> [] -> numeric args ->
    (is_rank 1 args n -> (z < - Z.of_nat n \/ Z.of_nat n <= z)%Z -> cat_ args kw = Err ValueError) /\
    (is_rank 0 args n -> 0 < n -> (z < - Z.of_nat n - 1 \/ Z.of_nat n < z)%Z -> a_ args kw = Err ValueError).
  Proof.
    intros Hkw Hne Hnum. split.
    - intros Hr Hz. unfold cat_. rewrite (kw_axis_get _ _ Hkw). cbn [bind].
      destruct (first_pass_rank 1 args n Hne Hnum Hr) as (n' & -> & En). cbn [bind]. rewrite En.
      unfold py_index. destruct (Z.ltb_spec z 0).
      + destruct (Z.ltb_spec (Z.of_nat n + z) 0); [reflexivity|lia].
      + destruct (Z.ltb_spec z (Z.of_nat n)); [lia|reflexivity].
    - intros Hr Hn Hz. unfold a_. rewrite (kw_axis_get _ _ Hkw). cbn [bind].
      destruct (first_pass_rank 0 args n Hne Hnum Hr) as (n' & -> & En). cbn [bind].
      replace n' with n by lia.
      replace ((z <? - Z.of_nat n - 1) || (Z.of_nat n <? z) && (0 <? n)%nat)%Z with true; [reflexivity|].
      symmetry. apply orb_true_iff. destruct Hz; [left; apply Z.ltb_lt; lia|right].
      apply andb_true_iff. split; [apply Z.ltb_lt; lia|apply Nat.ltb_lt; auto].
  Qed.
  (* lengths that do not broadcast *)
  Definition clash n m (a b : arg K) : Prop :=
    adim n (shp (aarr a)) m <> adim n (shp (aarr b)) m /\
    adim n (shp (aarr a)) m <> 1 /\ adim n (shp (aarr b)) m <> 1.
  Lemma clash_smaller n m args a b : In a args -> In b args -> clash n m a b ->
    exists c, In c args /\ alen n m c <> maxn (map (alen n m) args) /\ alen n m c <> 1.
  Proof.
    intros Ha Hb (H1 & H2 & H3).
    assert (La : alen n m a <= maxn (map (alen n m) args)) by (apply maxn_ge, in_map; auto).
    assert (Lb : alen n m b <= maxn (map (alen n m) args)) by (apply maxn_ge, in_map; auto).
    destruct (Nat.eq_dec (alen n m a) (maxn (map (alen n m) args))).
    - exists b. repeat split; auto. unfold alen in *. lia.
    - exists a. repeat split; auto.
  Qed.
  Theorem C07_not_broadcastable args kw z n k a b m : kw_axis kw z -> args <> [] -> numeric args ->
    In a args -> In b args -> m < n -> clash n m a b ->
    (is_rank 1 args n -> axis_is n z k -> m <> k -> cat_ args kw = Err ValueError) /\
    (is_rank 0 args n -> axis_is (S n) z k -> a_ args kw = Err ValueError).
  Proof.
    intros Hkw Hne Hnum Ha Hb Hm Hcl. destruct (clash_smaller _ _ _ _ _ Ha Hb Hcl) as (c & Hc & C1 & C2). split.
    - intros Hr Hax Hmk. rewrite (cat_unfold args kw z n k) by auto.
      apply cat_fill_err. exists (alen n k c), (aarr c). split; [apply in_map_iff; exists c; auto|].
      cbn [shp full]. destruct (bto _ _) eqn:E; auto. exfalso.
      destruct Hr as (_ & Hr & _). destruct Hax as [Hk _].
      pose proof (proj1 (cat_bto n k args c Hr Hk Hc) E) as E'. destruct (E' m Hm Hmk); auto.
    - intros Hr Hax. rewrite (stack_unfold args kw z n k) by auto.
      apply stack_fill_err. exists (aarr c). split; [apply in_map_iff; exists c; auto|].
      cbn [shp full]. destruct Hr as (_ & Hr & _). destruct Hax as [Hk _].
      rewrite remove_insert by (rewrite stack_region_length; lia).
      destruct (bto _ _) eqn:E; auto. exfalso.
      pose proof (proj1 (stack_bto n args c Hr Hc) E) as E'. destruct (E' m Hm); auto.
  Qed.
  (* lengths that broadcast, without a 0 against a 1 *)
  Definition agree n m (a b : arg K) : Prop :=
    let da := adim n (shp (aarr a)) m in let db := adim n (shp (aarr b)) m in
    da = db \/ (da = 1 /\ db <> 0) \/ (db = 1 /\ da <> 0).
  Lemma maxn_attained {A} (f : A -> nat) l : l <> [] -> exists b, In b l /\ f b = maxn (map f l).
  Proof.
    induction l as [|c l IH]; [congruence|]. intros _. destruct l as [|d l].
    - exists c. cbn. split; auto. lia.
    - destruct IH as (b & Hb & Eb); [discriminate|].
      change (maxn (map f (c :: d :: l))) with (Nat.max (f c) (maxn (map f (d :: l)))).
      destruct (Nat.max_spec (f c) (maxn (map f (d :: l)))) as [[_ E]|[_ E]]; rewrite E.
      + exists b. split; [right; auto|auto].
      + exists c. split; [left; auto|auto].
  Qed.
  Lemma agree_max n m args a : (forall a b, In a args -> In b args -> agree n m a b) -> In a args ->
    alen n m a = maxn (map (alen n m) args) \/ alen n m a = 1.
  Proof.
    intros H Ha.
    pose proof (maxn_attained (alen n m) args ltac:(intros ->; destruct Ha)) as M.
    destruct M as (b & Hb & Eb). rewrite <- Eb.
    assert (alen n m a <= alen n m b) by (rewrite Eb; apply maxn_ge, in_map; auto).
    specialize (H a b Ha Hb). unfold agree, alen in *. lia.
  Qed.
  Theorem C07_accepts_partial args kw z n k : kw_axis kw z -> args <> [] -> numeric args ->
    (is_rank 1 args n -> axis_is n z k ->
     (forall m a b, m < n -> m <> k -> In a args -> In b args -> agree n m a b) ->
     exists r, cat_ args kw = Ok r) /\
    (is_rank 0 args n -> axis_is (S n) z k ->
     (forall m a b, m < n -> In a args -> In b args -> agree n m a b) ->
     exists r, a_ args kw = Ok r).
  Proof.
    intros Hkw Hne Hnum. split.
    - intros Hr Hax H. rewrite (cat_unfold args kw z n k) by auto.
      destruct Hr as (_ & Hr & _). destruct Hax as [Hk _].
      destruct (cat_fill_ok k (map (fun a => (alen n k a, aarr a)) args) 0 (full (cat_region n k args) n0))
        as (r & E & _); [cbn; rewrite cat_region_length; auto| |exists r; exact E].
      intros di b Hin. apply in_map_iff in Hin as (a & Ea & Ha). injection Ea as <- <-. cbn [shp full].
      apply cat_bto; auto. intros m Hm Hmk. apply agree_max; auto.
    - intros Hr Hax H. rewrite (stack_unfold args kw z n k) by auto.
      destruct Hr as (_ & Hr & _). destruct Hax as [Hk _].
      destruct (stack_fill_ok k (map (fun a => aarr a) args) 0 (full (insert_at k (length args) (stack_region n args)) n0))
        as (r & E & _); [|exists r; exact E].
      cbn [shp full]. intros b Hb. apply in_map_iff in Hb as (a & <- & Ha).
      rewrite remove_insert by (rewrite stack_region_length; lia).
      apply stack_bto; auto. intros m Hm. apply agree_max; auto.
  Qed.
  (* numpy broadcasts lengths 0 and 1 to 0, cat_ and a_ refuse; a_ of scalars
     accepts any non-negative axis; no argument at all is an AttributeError *)
  Theorem C07_rejects_refuted (x : K) :
    let e := Arg true (full [2; 0] x) in let c := Arg true (full [2; 1] x) in
    let v := Arg true (full [0] x) in let s := Arg true (scalar x) in
    bshape [2; 0] [2; 1] = Some [2; 0] /\ cat_ [e; c] [] = Err ValueError /\
    bshape [0] [] = Some [0] /\ a_ [v; s] [] = Err ValueError /\
    (exists r, a_ [s; s] [("axis"%string, 5%Z)] = Ok r /\ shp r = [2]) /\
    cat_ (K:=K) [] [] = Err AttributeError /\ a_ (K:=K) [] [] = Err AttributeError.
  Proof.
    cbv zeta. split; [reflexivity|]. split; [reflexivity|]. split; [reflexivity|].
    split; [reflexivity|]. split; [eexists; split; reflexivity|]. split; reflexivity.
  Qed.
End P.

(* cat_([[1,2],[3,4]], 7, axis=-1): the scalar becomes a column *)
Example C05_case :
  let mat := Arg true (Nd [2; 2] (fun idx => inject_Z (Z.of_nat (1 + 2 * nth 0 idx 0 + nth 1 idx 0)))) in
  let seven := Arg true (scalar (inject_Z 7)) in
  kw_axis [("axis"%string, (-1)%Z)] (-1) /\ numeric [mat; seven] /\ is_rank 1 [mat; seven] 2 /\
  axis_is 2 (-1) 1 /\ common 2 (fun m => m <> 1) [mat; seven] [2; 5] /\
  exists r, cat_ [mat; seven] [("axis"%string, (-1)%Z)] = Ok r /\ shp r = [2; 3] /\
    map (fun j => get r [1; j]) [0; 1; 2] = [inject_Z 3; inject_Z 4; inject_Z 7].
Proof.
  cbv zeta. split; [right; reflexivity|]. split; [intros a [<-|[<-|[]]]; reflexivity|].
  split. { split; [lia|]. split; [intros a [<-|[<-|[]]]; cbn; lia|]. right. eexists. split; [left; reflexivity|reflexivity]. }
  split; [split; [lia|right; reflexivity]|].
  split. { split; [reflexivity|]. intros m Hm Hne. assert (m = 0) by lia. subst m. split.
           - intros a [<-|[<-|[]]]; cbn; [left; reflexivity|right; split; [reflexivity|discriminate]].
           - eexists. split; [left; reflexivity|reflexivity]. }
  eexists. split; [reflexivity|]. split; reflexivity.
Qed.
(* a_(0, [2,3,5]), the docstring example *)
Example C06_case :
  let z := Arg true (scalar (inject_Z 0)) in
  let v := Arg true (vec (inject_Z 0) (map inject_Z [2; 3; 5]%Z)) in
  is_rank 0 [z; v] 1 /\ axis_is 2 0 0 /\ common 1 (fun _ => True) [z; v] [3] /\
  exists r, a_ [z; v] [] = Ok r /\ shp r = [2; 3] /\
    map (fun j => get r [0; j]) [0; 1; 2] = map inject_Z [0; 0; 0]%Z /\
    map (fun j => get r [1; j]) [0; 1; 2] = map inject_Z [2; 3; 5]%Z.
Proof.
  cbv zeta.
  split. { split; [lia|]. split; [intros a [<-|[<-|[]]]; cbn; lia|]. right. eexists. split; [right; left; reflexivity|reflexivity]. }
  split; [split; [lia|left; reflexivity]|].
  split. { split; [reflexivity|]. intros m Hm _. assert (m = 0) by lia. subst m. split.
           - intros a [<-|[<-|[]]]; cbn; [right; split; [reflexivity|discriminate]|left; reflexivity].
           - eexists. split; [right; left; reflexivity|reflexivity]. }
  eexists. split; [reflexivity|]. split; [reflexivity|]. split; reflexivity.
Qed.
Example C07_case :
  let a := Arg true (full [2; 3] (inject_Z 1)) in let b := Arg true (full [4] (inject_Z 1)) in
  clash 2 1 a b /\ cat_ [a; b] [] = Err ValueError /\ a_ [a; b] [] = Err ValueError /\
  a_ [a; b] [("axes"%string, 0%Z)] = Err TypeError.
Proof. cbv zeta. split; [repeat split; cbn; lia|]. repeat split; reflexivity. Qed.
Print Assumptions C05_cat.
Print Assumptions C06_stack.
