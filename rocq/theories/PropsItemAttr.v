(* Properties C18-C23: ADict, items_are_attrs, redict. *)
From Coq Require Import String Ascii List Arith Bool Lia.
From Verif Require Import PyBase ItemAttr.
Import ListNotations.
Local Open Scope string_scope.

(* --- strings -------------------------------------------------------------------- *)
Lemma ends_us_spec s : ends_us s = true <-> exists k, s = k ++ "_".
Proof.
  induction s as [|a s IH].
  - split; [discriminate|]. intros [[|b k] H]; discriminate.
  - cbn. destruct s as [|b s].
    + rewrite Ascii.eqb_eq. split.
      * intros ->. exists "". reflexivity.
      * intros [[|c [|d k]] H]; cbn in H; try discriminate; congruence.
    + rewrite IH. split.
      * intros [k E]. exists (String a k). cbn. rewrite <- E. reflexivity.
      * intros [[|c k] H]; cbn in H; [discriminate|]. exists k. congruence.
Qed.
Lemma drop_last_app k : drop_last (k ++ "_") = k.
Proof. induction k as [|a k IH]; [reflexivity|]. cbn. destruct (k ++ "_") eqn:E; [destruct k; discriminate|]. rewrite IH. reflexivity. Qed.
Lemma name2key_escape k : name2key (k ++ "_") = k.
Proof.
  unfold name2key. replace (ends_us (k ++ "_")) with true by (symmetry; apply ends_us_spec; eauto).
  apply drop_last_app.
Qed.
Lemma name2key_plain n : (forall k, n <> k ++ "_") -> name2key n = n.
Proof.
  intros H. unfold name2key. destruct (ends_us n) eqn:E; auto.
  apply ends_us_spec in E as [k E]. destruct (H k E).
Qed.
Lemma dunder_spec s : dunder s = true <-> exists k, s = "__" ++ k.
Proof.
  unfold dunder. destruct s as [|a [|b s]].
  - split; [discriminate|]. intros [k H]; discriminate.
  - cbn -[ascii_dec]. split; [destruct (ascii_dec "_" a); discriminate|]. intros [k H]; discriminate.
  - cbn -[ascii_dec]. destruct (ascii_dec "_" a) as [<-|H].
    + destruct (ascii_dec "_" b) as [<-|H].
      * split; [eexists; reflexivity|destruct s; reflexivity].
      * split; [discriminate|]. intros [k E]. cbn in E. congruence.
    + split; [discriminate|]. intros [k E]. cbn in E. congruence.
Qed.

(* --- dict laws -------------------------------------------------------------------- *)
Section Laws.
  Context {V : Type}.
  Implicit Types d : dict V.
  Lemma dget_dset d k v k' : dget (dset d k v) k' = if k =? k' then Ok v else dget d k'.
  Proof.
    induction d as [|[a b] d IH]; cbn; [reflexivity|]. destruct (String.eqb_spec a k) as [->|Hne]; cbn.
    - destruct (k =? k'); reflexivity.
    - rewrite IH. destruct (String.eqb_spec a k') as [->|]; [|reflexivity].
      destruct (String.eqb_spec k k'); [congruence|reflexivity].
  Qed.
  Lemma dget_none d k : dget d k = Err KeyError <-> ~ In k (map fst d).
  Proof.
    induction d as [|[a b] d IH]; cbn; [tauto|]. destruct (String.eqb_spec a k); [|rewrite IH; tauto].
    split; [discriminate|]. tauto.
  Qed.
  Lemma dget_cases d k : dget d k = Err KeyError \/ exists v, dget d k = Ok v.
  Proof. induction d as [|[a b] d IH]; cbn; auto. destruct (a =? k); eauto. Qed.
  Lemma ddel_some d k v : NoDup (map fst d) -> dget d k = Ok v ->
    exists d', ddel d k = Ok d' /\ (forall x, In x (map fst d') -> In x (map fst d)) /\ NoDup (map fst d') /\
    forall k', dget d' k' = if k =? k' then Err KeyError else dget d k'.
  Proof.
    induction d as [|[a b] d IH]; cbn; [discriminate|]. intros ND E. inversion ND; subst.
    destruct (String.eqb_spec a k) as [->|Hne].
    - eexists. split; [reflexivity|]. split; [auto|]. split; [auto|]. intros k'.
      destruct (String.eqb_spec k k') as [->|]; [|reflexivity]. apply dget_none. auto.
    - destruct IH as (d' & -> & I & N & G); auto. cbn. eexists. split; [reflexivity|]. cbn.
      split; [intros x [<-|Hx]; auto|]. split; [constructor; auto|].
      intros k'. rewrite G. destruct (String.eqb_spec a k') as [->|]; [|reflexivity].
      destruct (String.eqb_spec k k'); [congruence|reflexivity].
  Qed.
  Lemma ddel_none d k : dget d k = Err KeyError -> ddel d k = Err KeyError.
  Proof. induction d as [|[a b] d IH]; cbn; auto. destruct (a =? k); [discriminate|]. intros H. rewrite IH; auto. Qed.
  Lemma dset_keys d k v x : In x (map fst (dset d k v)) <-> x = k \/ In x (map fst d).
  Proof.
    induction d as [|[a b] d IH]; cbn; [intuition auto|]. destruct (String.eqb_spec a k) as [->|]; cbn; [intuition auto|].
    rewrite IH. tauto.
  Qed.
  Lemma dset_nodup d k v : NoDup (map fst d) -> NoDup (map fst (dset d k v)).
  Proof.
    induction d as [|[a b] d IH]; cbn; intros H; [constructor; [intros []|constructor]|].
    inversion H; subst. destruct (String.eqb_spec a k) as [->|]; cbn; constructor; auto.
    rewrite dset_keys. intros [->|]; auto.
  Qed.
End Laws.

(* --- C18: attribute histories on an ADict act like a finite map ---------------------- *)
Inductive op (V : Type) := OSet (name : string) (v : V) | ODel (name : string).
Arguments OSet {V}. Arguments ODel {V}.
Section C18.
  Context {V A : Type}.
  Variable cattr : string -> option A.
  (* x.name = v, del x.name; an exception is caught and the history goes on *)
  Definition attr_step (d : dict V) (o : op V) : dict V :=
    match o with
    | OSet n v => adict_set d n v
    | ODel n => match adict_del d n with Ok d' => d' | Err _ => d end
    end.
  (* specification: a finite map from names to values *)
  Definition fmap := string -> option V.
  Definition fm_step (m : fmap) (o : op V) : fmap :=
    match o with
    | OSet n v => fun k => if n =? k then Some v else m k
    | ODel n => fun k => if n =? k then None else m k
    end.
  Definition repr (d : dict V) (m : fmap) : Prop :=
    NoDup (map fst d) /\
    forall k, dget d k = match m k with Some v => Ok v | None => Err KeyError end.
  Definition plain (n : string) : Prop := forall k, n <> k ++ "_".
  Definition op_name (o : op V) : string := match o with OSet n _ => n | ODel n => n end.
  Lemma step_repr d m o : repr d m -> plain (op_name o) -> repr (attr_step d o) (fm_step m o).
  Proof.
    intros [ND G] Hp. destruct o as [n v|n]; cbn in *; unfold adict_set, adict_del; rewrite name2key_plain by auto.
    - split; [apply dset_nodup; auto|]. intros k. rewrite dget_dset. destruct (n =? k); auto.
    - destruct (dget_cases d n) as [E|[v E]].
      + rewrite (ddel_none _ _ E). split; auto. intros k. destruct (String.eqb_spec n k) as [<-|]; auto.
      + destruct (ddel_some d n v ND E) as (d' & -> & _ & N & G'). split; auto. intros k. rewrite G'.
        destruct (n =? k); auto.
  Qed.
  (* attribute access is item access *)
  Theorem C18_attribute_is_item (d : dict V) name v : plain name -> cattr name = None ->
    adict_get cattr d name = rmap FromItem (dget d name) /\
    adict_set d name v = dset d name v /\
    adict_del d name = ddel d name /\
    (~ In name (map fst d) -> adict_get cattr d name = Err KeyError /\ adict_del d name = Err KeyError).
  Proof.
    intros Hp Ha. unfold adict_get, adict_set, adict_del, item. rewrite Ha, name2key_plain by auto.
    repeat split; auto.
    - apply dget_none in H. rewrite H. reflexivity.
    - apply ddel_none, dget_none. auto.
  Qed.
  (* after any history of sets and deletes the attributes read as the finite map does *)
  Theorem C18_history (ops : list (op V)) (d : dict V) (m : fmap) :
    repr d m -> Forall (fun o => plain (op_name o)) ops ->
    let d' := fold_left attr_step ops d in
    let m' := fold_left fm_step ops m in
    repr d' m' /\
    forall name, plain name -> cattr name = None ->
      adict_get cattr d' name = match m' name with Some v => Ok (FromItem v) | None => Err KeyError end.
  Proof.
    intros Hr Hf. cbv zeta.
    assert (R : repr (fold_left attr_step ops d) (fold_left fm_step ops m)).
    { clear -Hr Hf. revert d m Hr. induction Hf as [|o ops Ho Hf IH]; intros d m Hr; cbn; auto.
      apply IH. apply step_repr; auto. }
    split; [exact R|]. intros name Hp Ha.
    unfold adict_get, item. rewrite Ha, name2key_plain by auto. destruct R as [_ G]. rewrite G.
    destruct (fold_left fm_step ops m name); reflexivity.
  Qed.
End C18.
Arguments repr {V}. Arguments fm_step {V}.
(* the public attributes of dict *)
Definition dict_attrs : list string :=
  ["clear"; "copy"; "fromkeys"; "get"; "items"; "keys"; "pop"; "popitem"; "setdefault"; "update"; "values"].
Definition dict_cattr (n : string) : option unit :=
  if existsb (String.eqb n) dict_attrs || dunder n then Some tt else None.
Example C18_case :
  let d : dict nat := [("a", 1); ("b", 2)] in
  plain "c" /\ dict_cattr "c" = None /\
  adict_get dict_cattr (fold_left attr_step [OSet "c" 3; ODel "a"; OSet "b" 7; ODel "zz"] d) "b" = Ok (FromItem 7) /\
  adict_get dict_cattr (fold_left attr_step [OSet "c" 3; ODel "a"; OSet "b" 7; ODel "zz"] d) "a" = Err KeyError.
Proof.
  cbv zeta. repeat split. intros k E. assert (H : ends_us "c" = true) by (apply ends_us_spec; eauto). discriminate.
Qed.

(* --- C19: the trailing underscore escape ------------------------------------------- *)
(* proved: one underscore is removed, any key can be written, deleted and, unless the
   escaped name is itself a class attribute, read *)
Theorem C19_escape_partial {V A} (cattr : string -> option A) (d : dict V) key v :
  adict_set d (key ++ "_") v = dset d key v /\
  adict_del d (key ++ "_") = ddel d key /\
  (cattr (key ++ "_") = None -> adict_get cattr d (key ++ "_") = rmap FromItem (dget d key)) /\
  (cattr (key ++ "_") = None ->
     adict_get cattr (adict_set d (key ++ "_") v) (key ++ "_") = Ok (FromItem v)).
Proof.
  unfold adict_set, adict_del, adict_get, item. rewrite name2key_escape. repeat split; auto.
  - intros ->. reflexivity.
  - intros ->. rewrite dget_dset, String.eqb_refl. reflexivity.
Qed.
(* the keys the clause is for: no method name of dict ends in an underscore *)
Example C19_case : dict_cattr ("items" ++ "_") = None /\
  adict_get dict_cattr (adict_set [("items", 1)] ("items" ++ "_") 5) ("items" ++ "_") = Ok (FromItem 5) /\
  adict_get dict_cattr [("items", 1)] "items" = Ok (FromClass tt) /\
  adict_get dict_cattr [("a_", 4); ("a", 1)] ("a_" ++ "_") = Ok (FromItem 4).
Proof. repeat split. Qed.
(* refuted: for names beginning with a double underscore the trailing one is removed too *)
Theorem C19_dunder_refuted {V A} (cattr : string -> option A) (d : dict V) key v v' :
  dunder key = true -> cattr (key ++ "_") = None ->
  dget (adict_set d (key ++ "_") v) key = Ok v /\
  (dget d (key ++ "_") = Err KeyError -> dget (adict_set d (key ++ "_") v) (key ++ "_") = Err KeyError) /\
  (dget d key = Err KeyError -> dget d (key ++ "_") = Ok v' -> adict_get cattr d (key ++ "_") = Err KeyError).
Proof.
  intros Hd Ha. unfold adict_set, adict_get, item. rewrite name2key_escape. repeat split.
  - rewrite dget_dset, String.eqb_refl. reflexivity.
  - intros H. rewrite dget_dset. destruct (String.eqb_spec key (key ++ "_")) as [E|]; auto.
    exfalso. clear -E. induction key as [|a k IH]; cbn in E; [discriminate|]. apply IH. congruence.
  - intros H _. rewrite Ha, H. reflexivity.
Qed.
(* on the attributes of dict: x.__f_ = 5 stores x['__f'] *)
Definition dict_cattr' (n : string) : option unit :=
  if existsb (String.eqb n) dict_attrs || existsb (String.eqb n) ["__class__"; "__init__"; "__len__"; "__repr__"]
  then Some tt else None.
Example C19_dunder_case : dunder "__f" = true /\ dict_cattr' ("__f" ++ "_") = None /\
  adict_set ([] : dict nat) ("__f" ++ "_") 5 = [("__f", 5)] /\
  adict_get dict_cattr' [("__f_", 5)] ("__f" ++ "_") = Err KeyError.
Proof. repeat split. Qed.

(* --- C20: decorated classes ----------------------------------------------------------- *)
Section C20.
  Context {V A S : Type}.
  Variable cattr : string -> option A.
  Variable getitem : S -> string -> res V.
  Variable setitem : S -> string -> V -> res S.
  Variable delitem : S -> string -> res S.
  Let IAA := ItemsAreAttrs cattr S getitem setitem delitem.
  (* what the decorator installs in a class without attribute decorator_argument *)
  Theorem C20_decorated (c : cls V A S) :
    has_attr S c "decorator_argument" = false ->
    exists names g s d, items_are_attrs S (Some c) IAA = Ok (Class S c names (CGet S g) (CSet S s) (CDel S d)) /\
    (forall n, In n names <-> In n (cdir S c) /\ dunder n = false) /\
    (* reading *)
    (forall x n, dunder n = false -> ~ In n (cdir S c) -> plain n ->
       g names x n = rmap FromItem (getitem x n)) /\
    (forall x k, dunder (k ++ "_") = false -> ~ In (k ++ "_") (cdir S c) ->
       g names x (k ++ "_") = rmap FromItem (getitem x k)) /\
    (forall x n, dunder n = true \/ In n (cdir S c) ->
       g names x n = match cattr n with Some a => Ok (FromClass a) | None => Err AttributeError end) /\
    (* writing and deleting *)
    (forall x n v, dunder n = false -> plain n -> s x n v = setitem x n v /\ d x n = delitem x n) /\
    (forall x k v, dunder (k ++ "_") = false -> s x (k ++ "_") v = setitem x k v /\ d x (k ++ "_") = delitem x k) /\
    (forall x n v, dunder n = true -> s x n v = Err ValueError /\ d x n = Err ValueError) /\
    (* a value set under any name, the name of a method included, is read back through the escaped name *)
    (forall x n v x', (forall y k w y', setitem y k w = Ok y' -> getitem y' k = Ok w) ->
       dunder (n ++ "_") = false -> ~ In (n ++ "_") (cdir S c) -> plain n ->
       s x n v = Ok x' -> g names x' (n ++ "_") = Ok (FromItem v)).
  Proof.
    intros Hd. unfold items_are_attrs. rewrite Hd. cbn [cdict IAA ItemsAreAttrs dget String.eqb Ascii.eqb Bool.eqb bind].
    set (names := filter (fun n => negb (dunder n)) (cdir S c)).
    exists names, (iaa_get cattr S getitem), (iaa_set S setitem), (iaa_del S delitem).
    assert (N : forall n, In n names <-> In n (cdir S c) /\ dunder n = false).
    { intros n. unfold names. rewrite filter_In. destruct (dunder n); cbn; intuition congruence. }
    assert (X : forall n, existsb (String.eqb n) names = true <-> In n names).
    { intros n. rewrite existsb_exists. split.
      - intros (y & Hy & E). apply String.eqb_eq in E. subst; auto.
      - intros H. exists n. split; auto. apply String.eqb_refl. }
    assert (RD : forall x n, dunder n = false -> ~ In n (cdir S c) ->
       iaa_get cattr S getitem names x n = rmap FromItem (getitem x (name2key n))).
    { intros x n Hn Hi. unfold iaa_get. rewrite Hn. cbn [orb].
      destruct (existsb (String.eqb n) names) eqn:E; [|reflexivity].
      apply X, N in E. tauto. }
    split; [reflexivity|]. split; [exact N|].
    split; [intros x n Hn Hi Hp; rewrite RD by auto; rewrite name2key_plain; auto|].
    split; [intros x k Hn Hi; rewrite RD by auto; rewrite name2key_escape; auto|].
    split.
    { intros x n H. unfold iaa_get. destruct (dunder n) eqn:E; [reflexivity|]. destruct H as [H|H]; [discriminate|].
      replace (existsb (String.eqb n) names) with true by (symmetry; apply X, N; auto). reflexivity. }
    split; [intros x n v Hn Hp; unfold iaa_set, iaa_del; rewrite Hn, name2key_plain; auto|].
    split; [intros x k v Hn; unfold iaa_set, iaa_del; rewrite Hn, name2key_escape; auto|].
    split; [intros x n v Hn; unfold iaa_set, iaa_del; rewrite Hn; auto|].
    intros x n v x' Hlaw Hn Hi Hp Hs. rewrite RD, name2key_escape by auto.
    assert (Hn' : dunder n = false).
    { destruct (dunder n) eqn:E; auto. apply dunder_spec in E as [k ->].
      assert (dunder (("__" ++ k) ++ "_") = true) by (apply dunder_spec; exists (k ++ "_"); reflexivity). congruence. }
    unfold iaa_set in Hs. rewrite Hn', name2key_plain in Hs by auto. rewrite (Hlaw _ _ _ _ Hs). reflexivity.
  Qed.
  (* the default container is itself accepted as an argument of the decorator, and its three methods are attributes of it *)
  Theorem C21_default_container : (forall n m, In (n, m) (cdict S IAA) -> In n (cdir S IAA)) /\ items_are_attrs S (Some IAA) IAA = Ok (Partial S IAA).
  Proof. split; [|reflexivity]. intros n m [H|[H|[H|[]]]]; injection H as <- <-; cbn; auto 10. Qed.
End C20.
(* a decorated dict subclass with a method called info *)
Definition dsi (d : dict nat) k v : res (dict nat) := Ok (dset d k v).
Definition info_cls : cls nat unit (dict nat) := Cls _ ("info" :: dict_attrs) [].
Example C20_case :
  let cattr n := if n =? "info" then Some tt else dict_cattr n in
  has_attr _ info_cls "decorator_argument" = false /\
  exists names g s d, items_are_attrs _ (Some info_cls) (ItemsAreAttrs cattr _ dget dsi ddel)
    = Ok (Class _ info_cls names (CGet _ g) (CSet _ s) (CDel _ d)) /\
  s [] "info" 4 = Ok [("info", 4)] /\ g names [("info", 4)] "info" = Ok (FromClass tt) /\
  g names [("info", 4)] "info_" = Ok (FromItem 4) /\ g names [("info", 4)] "x" = Err KeyError /\
  s [] "__x" 4 = Err ValueError.
Proof. cbv zeta. split; [reflexivity|]. cbn. repeat eexists. Qed.

(* --- C21: custom method containers -------------------------------------------------------- *)
Section C21.
  Context {V A S : Type}.
  Variable dflt : cls V A S.  (* ItemsAreAttrs *)
  (* refuted: with @items_are_attrs(M) the default methods are installed, whatever M
     and whatever the class (which does not itself have decorator_argument) *)
  Theorem C21_custom_methods_refuted (M c : cls V A S) :
    has_attr S M "decorator_argument" = true -> has_attr S c "decorator_argument" = false ->
    (let! p := items_are_attrs S (Some M) dflt in apply_partial S p c)%res = items_are_attrs S (Some c) dflt.
  Proof. intros HM Hc. unfold items_are_attrs. rewrite HM. cbn [bind apply_partial]. reflexivity. Qed.
  (* proved: the keyword form @items_are_attrs(methods=M) installs those of M, provided
     that M itself (not a superclass of it) defines all three *)
  Theorem C21_keyword_partial (M c : cls V A S) g s d :
    has_attr S c "decorator_argument" = false ->
    dget (cdict S M) "get" = Ok g -> dget (cdict S M) "set" = Ok s -> dget (cdict S M) "delete" = Ok d ->
    exists names, (let! p := items_are_attrs S None M in apply_partial S p c)%res = Ok (Class S c names g s d).
  Proof.
    intros Hc Hg Hs Hd. cbn [items_are_attrs bind apply_partial]. unfold items_are_attrs. rewrite Hc, Hg, Hs, Hd.
    cbn [bind]. eexists. reflexivity.
  Qed.
  (* a subclass of the default container overriding nothing but name2key cannot be used at all *)
  Theorem C21_name2key_refuted (M c : cls V A S) :
    has_attr S c "decorator_argument" = false -> dget (cdict S M) "get" = Err KeyError ->
    (let! p := items_are_attrs S None M in apply_partial S p c)%res = Err KeyError.
  Proof.
    intros Hc Hg. cbn [items_are_attrs bind apply_partial]. unfold items_are_attrs. rewrite Hc, Hg. reflexivity.
  Qed.
End C21.
(* a container whose set upper-cases nothing but refuses every write: it is ignored *)
Example C21_case :
  let I := ItemsAreAttrs dict_cattr _ dget dsi ddel in
  let M : cls nat unit (dict nat) :=
    Cls _ ("decorator_argument" :: nil)
      [("get", CGet _ (iaa_get dict_cattr _ dget)); ("set", CSet _ (fun _ _ _ => Err TypeError)); ("delete", CDel _ (iaa_del _ ddel))] in
  has_attr _ M "decorator_argument" = true /\
  exists names g s d, (let! p := items_are_attrs _ (Some M) I in apply_partial _ p info_cls)%res
    = Ok (Class _ info_cls names (CGet _ g) (CSet _ s) (CDel _ d)) /\ s [] "a" 1 = Ok [("a", 1)].
Proof. cbv zeta. split; [reflexivity|]. cbn. repeat eexists. Qed.

(* --- C22, C23: redict ------------------------------------------------------------------------ *)
Section Redict.
  Context {V : Type}.
  (* specification: nested dicts as trees *)
  Inductive tree := TLeaf (v : V) | TDict (c : dcls) (its : list (string * tree)).
  (* h, v represents t; every dict object met satisfies P *)
  Inductive unfolds (P : nat -> Prop) (h : heap V) : value V -> tree -> Prop :=
  | U_leaf v : unfolds P h (VLeaf v) (TLeaf v)
  | U_dict r o its : P r -> nth_error h r = Some o -> NoDup (map fst (oitems o)) ->
      Forall2 (fun kv kt => fst kv = fst kt /\ unfolds P h (snd kv) (snd kt)) (oitems o) its ->
      unfolds P h (VRef r) (TDict (ocls o) its).
  (* the tree with every class replaced *)
  Fixpoint retag (c : dcls) (t : tree) : tree :=
    match t with
    | TLeaf v => TLeaf v
    | TDict _ its => TDict c (map (fun kt => (fst kt, retag c (snd kt))) its)
    end.
  Fixpoint depth (t : tree) : nat :=
    match t with
    | TLeaf _ => 0
    | TDict _ its => S (fold_right (fun kt m => Nat.max (depth (snd kt)) m) 0 its)
    end.
  Lemma tree_rect' (Q : tree -> Prop) (HL : forall v, Q (TLeaf v))
    (HD : forall c its, Forall (fun kt => Q (snd kt)) its -> Q (TDict c its)) : forall t, Q t.
  Proof.
    fix F 1. intros [v|c its]; [apply HL|]. apply HD. induction its as [|[k t] its IH]; constructor; [apply F|exact IH].
  Qed.
  Lemma unfolds_frame (P P' : nat -> Prop) h h' t : (forall r, P r -> P' r) ->
    (forall r, P r -> nth_error h' r = nth_error h r) ->
    forall v, unfolds P h v t -> unfolds P' h' v t.
  Proof.
    intros HP HE. induction t as [v0|c its IH] using tree_rect'; intros v H; inversion H; subst; [constructor|].
    constructor; auto. { rewrite HE; auto. }
    match goal with H : Forall2 _ _ its |- _ => revert H end. generalize (oitems o). clear -IH.
    intros l H. induction H as [|kv kt l its [Hk Hu] Hf IHf]; constructor; auto.
    - inversion IH; subst. split; auto.
    - inversion IH; subst. auto.
  Qed.
  Lemma nth_error_upd {A} i j (x : A) l : nth_error (upd i x l) j = if (i =? j)%nat then (if (i <? length l)%nat then Some x else None) else nth_error l j.
  Proof.
    revert i j; induction l as [|a l IH]; intros [|i] [|j]; cbn; auto; try (destruct (i =? j)%nat; reflexivity).
    rewrite IH. destruct (Nat.eqb_spec i j); auto.
  Qed.
  Lemma hset_other (h : heap V) r k v j : r <> j -> nth_error (hset h r k v) j = nth_error h j.
  Proof.
    intros H. unfold hset. destruct (nth_error h r); auto. rewrite nth_error_upd. destruct (Nat.eqb_spec r j); congruence.
  Qed.
  Lemma hset_same (h : heap V) r k v o : nth_error h r = Some o ->
    nth_error (hset h r k v) r = Some (Obj (ocls o) (dset (oitems o) k v)).
  Proof.
    intros H. unfold hset. rewrite H, nth_error_upd, Nat.eqb_refl.
    assert ((r <? length h)%nat = true) as ->; [|reflexivity].
    apply Nat.ltb_lt. apply nth_error_Some. congruence.
  Qed.
  Lemma hset_length (h : heap V) r k v : length (hset h r k v) = length h.
  Proof. unfold hset. destruct (nth_error h r); auto. apply upd_length. Qed.
  Lemma dset_middle (l1 l2 : dict (value V)) k v w : ~ In k (map fst l1) ->
    dset (l1 ++ (k, v) :: l2)%list k w = (l1 ++ (k, w) :: l2)%list.
  Proof.
    induction l1 as [|[a b] l1 IH]; cbn; intros H.
    - rewrite String.eqb_refl. reflexivity.
    - destruct (String.eqb_spec a k); [tauto|]. rewrite IH; auto.
  Qed.

  Lemma Forall2_impl {A B} (P Q : A -> B -> Prop) l l' : (forall a b, P a b -> Q a b) -> Forall2 P l l' -> Forall2 Q l l'.
  Proof. intros H F. induction F; constructor; auto. Qed.

  (* the loop of one call, as a separate function *)
  Fixpoint rloop (rec : heap V -> nat -> option (heap V * nat)) (dnew : nat) (l : dict (value V)) (h : heap V) : option (heap V * nat) :=
    match l with
    | [] => Some (h, dnew)
    | (_, VLeaf _) :: l => rloop rec dnew l h
    | (k, VRef r) :: l =>
      match rec h r with
      | Some (h', r') => rloop rec dnew l (hset h' dnew k (VRef r'))
      | None => None
      end
    end.
  Lemma redict_S fuel (h : heap V) d c : redict (S fuel) h d c =
    match nth_error h d with
    | None => None
    | Some o =>
      let c := match c with Some c => c | None => if is_adict (ocls o) then CDict else CADict end in
      rloop (fun h r => redict fuel h r (Some c)) (length h) (oitems o) (h ++ [Obj c (oitems o)])%list
    end.
  Proof.
    cbn. destruct (nth_error h d) as [o|]; [|reflexivity]. cbv zeta.
    generalize (h ++ [Obj match c with Some c => c | None => if is_adict (ocls o) then CDict else CADict end (oitems o)])%list.
    generalize (oitems o). intros l. induction l as [|[k [v|r]] l IH]; intros h0; cbn; auto.
    destruct (redict fuel h0 r _) as [[h' r']|]; auto.
  Qed.

  (* what a correct recursive call does *)
  Definition rec_ok (c : dcls) (t : tree) (rec : heap V -> nat -> option (heap V * nat)) : Prop :=
    forall (P : nat -> Prop) h r, (forall i, P i -> i < length h) -> unfolds P h (VRef r) t ->
    exists h' r', rec h r = Some (h', r') /\ length h < length h' /\
      (forall i, i < length h -> nth_error h' i = nth_error h i) /\
      unfolds (fun i => length h <= i < length h') h' (VRef r') (retag c t).

  Lemma rloop_ok rec c dnew (P : nat -> Prop) : (forall i, P i -> i < dnew) -> forall l its h done dits,
    Forall (fun kt => (exists v, snd kt = TLeaf v) \/ rec_ok c (snd kt) rec) its ->
    dnew < length h ->
    nth_error h dnew = Some (Obj c (done ++ l)%list) -> NoDup (map fst (done ++ l)%list) ->
    Forall2 (fun kv kt => fst kv = fst kt /\ unfolds P h (snd kv) (snd kt)) l its ->
    Forall2 (fun kv kt => fst kv = fst kt /\ unfolds (fun i => dnew < i < length h) h (snd kv) (snd kt)) done dits ->
    exists h', rloop rec dnew l h = Some (h', dnew) /\ length h <= length h' /\
      (forall i, i < dnew -> nth_error h' i = nth_error h i) /\
      exists done', nth_error h' dnew = Some (Obj c done') /\ map fst done' = map fst (done ++ l)%list /\
      Forall2 (fun kv kt => fst kv = fst kt /\ unfolds (fun i => dnew < i < length h') h' (snd kv) (snd kt)) done'
        (dits ++ map (fun kt => (fst kt, retag c (snd kt))) its)%list.
  Proof.
    intros HP. induction l as [|[k v] l IH]; intros its h done dits Hrec Hlen Hobj ND Hl Hd.
    - inversion Hl; subst. cbn. exists h. split; [reflexivity|]. split; [lia|]. split; [auto|].
      exists (done ++ [])%list. split; [auto|]. rewrite !app_nil_r. auto.
    - inversion Hl as [|kv kt l' its' [Hk Hu] Hl']; subst. inversion Hrec as [|? ? Hr Hrec']; subst. cbn [fst snd] in *. subst k.
      destruct kt as [k t]. cbn [fst snd] in *.
      replace (done ++ (k, v) :: l)%list with ((done ++ [(k, v)]) ++ l)%list in * by (rewrite <- app_assoc; reflexivity).
      inversion Hu as [v0|r o its0 Pr Ho NDo Fo]; subst.
      + cbn [rloop]. 
        destruct (IH its' h (done ++ [(k, VLeaf v0)])%list (dits ++ [(k, TLeaf v0)])%list) as (h' & E & L & F & done' & O & M & G); auto.
        { apply Forall2_app; auto. constructor; [|constructor]. split; [reflexivity|]. constructor. }
        exists h'. repeat split; auto. exists done'. split; [auto|]. split; [auto|].
        rewrite <- app_assoc in G. exact G.
      + cbn [rloop]. destruct Hr as [[v0 E0]|Hr]; [discriminate|].
        destruct (Hr P h r) as (h1 & r1 & E1 & L1 & F1 & U1).
        { intros i Hi. specialize (HP i Hi). lia. }
        { exact Hu. }
        rewrite E1. set (h2 := hset h1 dnew k (VRef r1)).
        assert (O1 : nth_error h1 dnew = Some (Obj c (done ++ (k, VRef r) :: l)%list)).
        { rewrite F1 by auto. rewrite Hobj. rewrite <- app_assoc. reflexivity. }
        assert (NDk : ~ In k (map fst done)).
        { rewrite <- app_assoc in ND. cbn in ND. rewrite map_app in ND. cbn in ND. apply NoDup_remove_2 in ND.
          intros Hin. apply ND. apply in_or_app. auto. }
        assert (O2 : nth_error h2 dnew = Some (Obj c ((done ++ [(k, VRef r1)]) ++ l)%list)).
        { unfold h2. rewrite (hset_same _ _ _ _ _ O1). cbn. rewrite dset_middle by auto. rewrite <- app_assoc. reflexivity. }
        assert (L2 : length h2 = length h1) by apply hset_length.
        assert (Fr : forall i, i <> dnew -> i < length h -> nth_error h2 i = nth_error h i).
        { intros i Hi Hi'. unfold h2. rewrite hset_other by auto. apply F1; auto. }
        destruct (IH its' h2 (done ++ [(k, VRef r1)])%list (dits ++ [(k, retag c (TDict (ocls o) its0))])%list) as (h' & E & L & F & done' & O & M & G); auto.
        * lia.
        * revert ND. rewrite !map_app. auto.
        * eapply Forall2_impl; [|exact Hl']. intros kv kt [Hk Hu']. split; auto.
          eapply unfolds_frame; [| |exact Hu']; auto. intros i Hi. specialize (HP i Hi). apply Fr; lia.
        * apply Forall2_app.
          -- eapply Forall2_impl; [|exact Hd]. intros kv kt [Hk Hu']. split; auto.
             eapply unfolds_frame; [| |exact Hu']. { intros i Hi. cbv beta in *. lia. } intros i Hi. cbv beta in *. apply Fr; lia.
          -- constructor; [|constructor]. split; [reflexivity|]. cbn [snd].
             eapply unfolds_frame; [| |exact U1]. { intros i Hi. cbv beta in *. lia. }
             intros i Hi. unfold h2. cbv beta in *. apply hset_other. lia.
        * exists h'. split; [exact E|]. split; [lia|]. split.
          { intros i Hi. rewrite F by auto. apply Fr; lia. }
          exists done'. split; [auto|]. split; [rewrite M, !map_app; reflexivity|].
          rewrite <- app_assoc in G. exact G.
  Qed.

  Lemma depth_in kt (its : list (string * tree)) : In kt its ->
    depth (snd kt) <= fold_right (fun kt m => Nat.max (depth (snd kt)) m) 0 its.
  Proof. induction its as [|a its IH]; cbn; [tauto|]. intros [->|H]; [lia|]. specialize (IH H). lia. Qed.

  (* the call with any cls argument *)
  Lemma redict_ok c its0 copt : forall fuel (P : nat -> Prop) h r,
    depth (TDict c its0) <= fuel -> (forall i, P i -> i < length h) -> unfolds P h (VRef r) (TDict c its0) ->
    let c' := match copt with Some c' => c' | None => if is_adict c then CDict else CADict end in
    exists h', redict fuel h r copt = Some (h', length h) /\ length h < length h' /\
      (forall i, i < length h -> nth_error h' i = nth_error h i) /\
      unfolds (fun i => length h <= i < length h') h' (VRef (length h)) (retag c' (TDict c its0)).
  Proof.
    assert (Gen : forall t c its, t = TDict c its -> forall copt fuel (P : nat -> Prop) h r,
       depth t <= fuel -> (forall i, P i -> i < length h) -> unfolds P h (VRef r) t ->
       let c' := match copt with Some c' => c' | None => if is_adict c then CDict else CADict end in
       exists h', redict fuel h r copt = Some (h', length h) /\ length h < length h' /\
         (forall i, i < length h -> nth_error h' i = nth_error h i) /\
         unfolds (fun i => length h <= i < length h') h' (VRef (length h)) (retag c' t)).
    2:{ intros. eapply Gen; eauto. }
    induction t as [v|c1 its1 IHt] using tree_rect'; intros c2 its2 Et copt2 fuel P h r Hf HP Hu c'; [discriminate|].
    injection Et as -> ->. destruct fuel as [|fuel]; [cbn in Hf; lia|].
    inversion Hu as [|r' o its' Pr Ho ND Hits]; subst. rewrite redict_S, Ho. cbv zeta. fold c'.
    assert (Lt : r < length h) by auto.
    destruct (rloop_ok (fun h r => redict fuel h r (Some c')) c' (length h) P HP (oitems o) its2 (h ++ [Obj c' (oitems o)])%list [] [])
      as (h' & E & L & F & done' & O & M & G).
    - apply Forall_forall. intros kt Hin. destruct (snd kt) as [v|c3 its3] eqn:Ek; [left; eauto|right].
      intros P' h0 r0 HP' Hu0. rewrite Forall_forall in IHt. specialize (IHt kt Hin). rewrite Ek in IHt.
      destruct (IHt c3 its3 eq_refl (Some c') fuel P' h0 r0) as (h'' & E & L & F & U); auto.
      + pose proof (depth_in kt its2 Hin) as D. rewrite Ek in D. cbn [depth] in Hf. lia.
      + exists h'', (length h0). auto.
    - rewrite app_length. cbn. lia.
    - rewrite nth_error_app2 by lia. rewrite Nat.sub_diag. reflexivity.
    - exact ND.
    - eapply Forall2_impl; [|exact Hits]. intros kv kt [Hk Hu0]. split; auto.
      eapply unfolds_frame; [| |exact Hu0]; auto. intros i Hi. apply nth_error_app1. auto.
    - constructor.
    - exists h'. rewrite app_length in L. cbn in L. split; [exact E|]. split; [lia|]. split.
      { intros i Hi. rewrite F by auto. apply nth_error_app1. auto. }
      cbn [retag]. refine (U_dict _ _ (length h) (Obj c' done') _ _ _ _ _); auto.
      + lia.
      + cbn. rewrite M. exact ND.
      + cbn in *. eapply Forall2_impl; [|exact G]. intros kv kt [Hk Hu0]. split; auto.
        eapply unfolds_frame; [| |exact Hu0]; auto. intros i Hi. cbv beta in *. lia.
  Qed.

  (* C22: the result is the same tree with every class replaced by cls, in entirely
     fresh objects; every object that existed before is unchanged *)
  Theorem C22_redict (h : heap V) (d : nat) (c c0 : dcls) its :
    unfolds (fun i => i < length h) h (VRef d) (TDict c0 its) ->
    exists N, forall fuel, N <= fuel ->
    exists h' d', redict fuel h d (Some c) = Some (h', d') /\
      unfolds (fun i => length h <= i < length h') h' (VRef d') (retag c (TDict c0 its)) /\
      (forall i, i < length h -> nth_error h' i = nth_error h i) /\
      unfolds (fun i => i < length h) h' (VRef d) (TDict c0 its).
  Proof.
    intros Hu. exists (depth (TDict c0 its)). intros fuel Hf.
    destruct (redict_ok c0 its (Some c) fuel (fun i => i < length h) h d Hf (fun i H => H) Hu) as (h' & E & L & F & U).
    exists h', (length h). repeat split; auto.
    eapply unfolds_frame; [| |exact Hu]; auto.
  Qed.

  (* C23 *)
  Fixpoint uniform (c : dcls) (t : tree) : Prop :=
    match t with
    | TLeaf _ => True
    | TDict c' its => c' = c /\ fold_right (fun kt P => uniform c (snd kt) /\ P) True its
    end.
  Lemma retag_uniform c t : uniform c (retag c t).
  Proof.
    induction t as [v|c0 its IH] using tree_rect'; cbn; auto. split; auto.
    induction IH; cbn; auto.
  Qed.
  Lemma retag_id c t : uniform c t -> retag c t = t.
  Proof.
    induction t as [v|c0 its IH] using tree_rect'; cbn; auto. intros [-> H]. f_equal.
    induction IH as [|[k t] its Ht Hits IHi]; cbn in *; auto. destruct H. rewrite Ht, IHi; auto.
  Qed.
  Lemma retag_retag c c' t : retag c (retag c' t) = retag c t.
  Proof.
    induction t as [v|c0 its IH] using tree_rect'; cbn; auto. f_equal. rewrite map_map.
    apply map_ext_in. intros kt Hin. cbn. rewrite Forall_forall in IH. rewrite IH; auto.
  Qed.
  Definition toggle (c : dcls) : dcls := if is_adict c then CDict else CADict.
  Theorem C23_redict_toggles (h : heap V) (d : nat) c its :
    c = CDict \/ c = CADict -> uniform c (TDict c its) ->
    unfolds (fun i => i < length h) h (VRef d) (TDict c its) ->
    exists N, forall fuel, N <= fuel ->
    exists h1 d1, redict fuel h d None = Some (h1, d1) /\
      (exists t1, unfolds (fun i => i < length h1) h1 (VRef d1) t1 /\ uniform (toggle c) t1 /\ t1 = retag (toggle c) (TDict c its)) /\
      exists h2 d2, redict fuel h1 d1 None = Some (h2, d2) /\
        unfolds (fun i => length h1 <= i < length h2) h2 (VRef d2) (TDict c its).
  Proof.
    intros Hc Hun Hu. exists (depth (TDict c its)). intros fuel Hf.
    destruct (redict_ok c its None fuel (fun i => i < length h) h d Hf (fun i H => H) Hu) as (h1 & E & L & F & U).
    fold (toggle c) in U. exists h1, (length h). split; [exact E|].
    assert (U1 : unfolds (fun i => i < length h1) h1 (VRef (length h)) (retag (toggle c) (TDict c its))).
    { eapply unfolds_frame; [| |exact U]; auto. intros i Hi. cbv beta in *. lia. }
    split. { eexists. split; [exact U1|]. split; [apply retag_uniform|reflexivity]. }
    assert (D : forall c' t, depth (retag c' t) = depth t).
    { intros c' t. induction t as [v|c0 its0 IH] using tree_rect'; cbn; auto. f_equal.
      induction IH as [|kt its0 Hk Hi IHi]; cbn; auto. }
    cbn [retag] in U1.
    destruct (redict_ok (toggle c) _ None fuel _ h1 (length h) ltac:(rewrite <- (D (toggle c) (TDict c its)) in Hf; exact Hf) (fun i H => H) U1)
      as (h2 & E2 & L2 & F2 & U2).
    exists h2, (length h1). split; [exact E2|].
    replace (if is_adict (toggle c) then CDict else CADict) with c in U2 by (destruct Hc; subst; reflexivity).
    rewrite <- (retag_id c (TDict c its)) by auto. rewrite <- (retag_retag c (toggle c)). exact U2.
  Qed.
End Redict.
(* {'a': 1, 'b': {'c': 2}, 'd': {'c': 2}} with the two inner dicts the same object *)
Example C22_case :
  let h : heap nat := [Obj CDict [("c", VLeaf 2)]; Obj CDict [("a", VLeaf 1); ("b", VRef 0); ("d", VRef 0)]] in
  let inner := TDict CDict [("c", TLeaf 2)] in
  unfolds (fun i => i < length h) h (VRef 1) (TDict CDict [("a", TLeaf 1); ("b", inner); ("d", inner)]) /\
  uniform CDict (TDict CDict [("a", TLeaf 1); ("b", inner); ("d", inner)]) /\
  redict 2 h 1 None = Some (h ++ [Obj CADict [("a", VLeaf 1); ("b", VRef 3); ("d", VRef 4)];
                                   Obj CADict [("c", VLeaf 2)]; Obj CADict [("c", VLeaf 2)]], 2)%list.
Proof.
  cbv zeta. split; [|split; [cbn; tauto|reflexivity]].
  assert (ND1 : NoDup ["c"]) by (repeat constructor; cbn; intuition discriminate).
  assert (ND2 : NoDup ["a"; "b"; "d"]) by (repeat constructor; cbn; intuition discriminate).
  assert (I : unfolds (fun i => i < 2) [Obj CDict [("c", VLeaf 2)]; Obj CDict [("a", VLeaf 1); ("b", VRef 0); ("d", VRef 0)]]
    (VRef 0) (TDict CDict [("c", TLeaf 2)])).
  { eapply (U_dict _ _ 0 (Obj CDict [("c", VLeaf 2)])); cbn; auto; try lia. repeat constructor. }
  eapply (U_dict _ _ 1 (Obj CDict [("a", VLeaf 1); ("b", VRef 0); ("d", VRef 0)])); cbn; auto.
  repeat constructor; auto.
Qed.
Print Assumptions C22_redict.
Print Assumptions C20_decorated.
