(* C116, C117: the names offered by the packages; execfile. *)
From Coq Require Import String Ascii List Arith Bool Lia.
From Verif Require Import PyBase ItemAttr PropsItemAttr Interactive PropsInteractive Pyplotx Names.
Import ListNotations.
Local Open Scope string_scope.

(** ** specification *)
(* the namespace m has all of these names *)
Definition defines (m : dict mval) (names : list string) : Prop := forall nm, In nm names -> exists v, bound m nm = Some v.
(* the names that a module without __all__ offers *)
Definition public (nm : string) : Prop := forall r, nm <> String "_" r.

(** ** star imports *)
Lemma dget_bound m nm v : bound m nm = Some v -> dget m nm = Ok v.
Proof. rewrite bound_dget. destruct (dget m nm); congruence. Qed.
Lemma star_bind_ok : forall names m d, defines m names ->
  exists d', star_bind names m d = Ok d' /\ (forall nm, In nm names -> bound d' nm = bound m nm) /\ (forall nm, ~ In nm names -> bound d' nm = bound d nm).
Proof.
  induction names as [|k names IH]; intros m d D; [exists d; cbn; tauto|].
  destruct (D k (or_introl eq_refl)) as [v Ev]. cbn [star_bind]. rewrite (dget_bound _ _ _ Ev).
  destruct (IH m (dset d k v)) as (d' & E & I & O); [intros nm H; apply D; now right|].
  exists d'. split; [exact E|]. split.
  - intros nm [<-|H]; [|auto]. destruct (in_dec string_dec k names) as [J|J]; [auto|]. rewrite (O k J), bound_dset. destruct (string_dec k k); congruence.
  - intros nm H. rewrite O by (intros J; apply H; now right). rewrite bound_dset. destruct (string_dec k nm) as [->|]; auto. exfalso. apply H. now left.
Qed.
Lemma star_bind_missing : forall names m d, ~ defines m names -> star_bind names m d = Err AttributeError.
Proof.
  induction names as [|k names IH]; intros m d D; [exfalso; apply D; intros nm []|]. cbn [star_bind].
  destruct (dget m k) as [v|e] eqn:E; [|reflexivity]. apply IH. intros D'. apply D. intros nm [<-|H]; [|auto]. exists v. rewrite bound_dget, E. reflexivity.
Qed.
Lemma prefix_us nm : prefix "_" nm = false <-> public nm.
Proof.
  unfold public. destruct nm as [|a r]; cbn [prefix]; [split; [discriminate|reflexivity]|].
  destruct (ascii_dec "_" a) as [<-|N].
  - assert (prefix "" r = true) as -> by (destruct r; reflexivity). split; [discriminate|]. intros H. exfalso. apply (H r). reflexivity.
  - split; [|reflexivity]. intros _ r' E. apply N. congruence.
Qed.
Lemma star_public m : defines m (star_names None m) /\ forall nm, In nm (star_names None m) <-> public nm /\ exists v, bound m nm = Some v.
Proof.
  assert (I : forall nm, In nm (star_names None m) <-> public nm /\ exists v, bound m nm = Some v).
  { intros nm. cbn [star_names]. rewrite filter_In, negb_true_iff, prefix_us. split.
    - intros [A B]. split; [auto|]. apply in_bound. exact A.
    - intros [B [v E]]. split; [|auto]. eapply bound_in. exact E. }
  split; [|exact I]. intros nm H. apply I. exact H.
Qed.

(** ** C116 *)
Definition exports : list string := basic_all ++ pwpoly_all ++ itemattr_all ++ pcwise_all ++ lsqfit_all.
Definition submodules : list string := ["basic"; "solveper"; "pwpoly"; "itemattr"; "pcwise"; "lsqfit"].

(* the lists __all__ name only what the modules define, no name twice, also across the modules *)
Theorem C116_all : incl basic_all basic_defs /\ incl pwpoly_all pwpoly_defs /\ incl itemattr_all itemattr_defs /\ incl pcwise_all pcwise_defs /\
  incl lsqfit_all lsqfit_defs /\ incl pltwraps_all2 pltwraps_defs /\ incl mpldefaults_all mpldefaults_defs /\
  NoDup exports /\ Forall public exports /\ NoDup pltwraps_all2 /\ NoDup mpldefaults_all /\
  (forall nm, In nm pltwraps_all2 /\ In nm mpldefaults_all <-> nm = "title") /\ (forall nm, In nm exports -> ~ In nm pltwraps_all2 /\ ~ In nm mpldefaults_all).
Proof.
  assert (D : forall a b : list string, forallb (fun x => if in_dec string_dec x b then true else false) a = true -> incl a b).
  { intros a b H x Hx. rewrite forallb_forall in H. specialize (H x Hx). destruct (in_dec string_dec x b); [auto|discriminate]. }
  assert (N : forall a : list string, nodup string_dec a = a -> NoDup a) by (intros a <-; apply NoDup_nodup).
  repeat match goal with |- _ /\ _ => split end; try (apply D; vm_compute; reflexivity); try (apply N; vm_compute; reflexivity).
  - apply Forall_forall. intros nm H. apply prefix_us. revert nm H. apply Forall_forall. vm_compute. repeat constructor.
  - intros nm. split; [|intros ->; split; apply (D ["title"]); vm_compute; auto].
    intros [A B]. cbn in B. destruct B as [<-|[<-|[<-|[<-|[<-|[<-|[<-|[]]]]]]]]; auto; exfalso; revert A; vm_compute; intuition discriminate.
  - intros nm H. assert (E : forallb (fun x => if in_dec string_dec x (pltwraps_all2 ++ mpldefaults_all) then false else true) exports = true) by (vm_compute; reflexivity).
    rewrite forallb_forall in E. specialize (E nm H). destruct (in_dec string_dec nm _) as [|J]; [discriminate|]. rewrite in_app_iff in J. tauto.
Qed.

Lemma load_ok deps name l alls m d : defines m alls -> ~ In name (map fst deps) ->
  exists d', load_star deps name l (Some alls) m d = Ok d' /\ (forall nm, In nm alls -> bound d' nm = bound m nm) /\
    (forall nm, ~ In nm alls -> bound d' nm = if string_dec name nm then Some (MMod l) else bound (fold_left (fun d s => dset d (fst s) (MMod (snd s))) deps d) nm).
Proof.
  intros D _. unfold load_star, star_into. cbn [star_names].
  destruct (star_bind_ok alls m (dset (fold_left (fun d s => dset d (fst s) (MMod (snd s))) deps d) name (MMod l)) D) as (d' & E & I & O).
  exists d'. split; [exact E|]. split; [exact I|]. intros nm H. rewrite (O nm H). apply bound_dset.
Qed.

Lemma D_dec (a b : list string) : forallb (fun x => if in_dec string_dec x b then false else true) a = true -> forall x, In x a -> ~ In x b.
Proof. intros H x Hx. rewrite forallb_forall in H. specialize (H x Hx). destruct (in_dec string_dec x b); [discriminate|auto]. Qed.

(* import npplus: every exported name is the object of its own module, no star import hides
   another; the submodules are bound under their names, but pcwise is the function; nothing else
   is bound.  A module that lacks a name of its __all__ would make the import fail. *)
Theorem C116_npplus : forall M d,
  defines (snd (basic_ M)) basic_all -> defines (snd (pwpoly_ M)) pwpoly_all -> defines (snd (itemattr_ M)) itemattr_all ->
  defines (snd (pcwise_ M)) pcwise_all -> defines (snd (lsqfit_ M)) lsqfit_all ->
  exists d', npplus_init M d = Ok d' /\
    (forall nm, In nm basic_all -> bound d' nm = bound (snd (basic_ M)) nm) /\
    (forall nm, In nm pwpoly_all -> bound d' nm = bound (snd (pwpoly_ M)) nm) /\
    (forall nm, In nm itemattr_all -> bound d' nm = bound (snd (itemattr_ M)) nm) /\
    bound d' "pcwise" = bound (snd (pcwise_ M)) "pcwise" /\
    (forall nm, In nm lsqfit_all -> bound d' nm = bound (snd (lsqfit_ M)) nm) /\
    bound d' "basic" = Some (MMod (fst (basic_ M))) /\ bound d' "solveper" = Some (MMod (solveper_ M)) /\ bound d' "pwpoly" = Some (MMod (fst (pwpoly_ M))) /\
    bound d' "itemattr" = Some (MMod (fst (itemattr_ M))) /\ bound d' "lsqfit" = Some (MMod (fst (lsqfit_ M))) /\
    (forall nm, ~ In nm exports -> ~ In nm submodules -> bound d' nm = bound d nm).
Proof.
  intros M d D1 D2 D3 D4 D5. unfold npplus_init.
  destruct (load_ok [] "basic" (fst (basic_ M)) basic_all _ d D1 (fun x => x)) as (d1 & -> & I1 & O1). cbn [bind].
  destruct (load_ok [("solveper", solveper_ M)] "pwpoly" (fst (pwpoly_ M)) pwpoly_all _ d1 D2) as (d2 & -> & I2 & O2); [cbn; intuition discriminate|]. cbn [bind].
  destruct (load_ok [] "itemattr" (fst (itemattr_ M)) itemattr_all _ d2 D3 (fun x => x)) as (d3 & -> & I3 & O3). cbn [bind].
  destruct (load_ok [] "pcwise" (fst (pcwise_ M)) pcwise_all _ d3 D4 (fun x => x)) as (d4 & -> & I4 & O4). cbn [bind].
  destruct (load_ok [] "lsqfit" (fst (lsqfit_ M)) lsqfit_all _ d4 D5 (fun x => x)) as (d5 & -> & I5 & O5).
  cbn [fold_left fst snd] in *.
  assert (O2' : forall nm, ~ In nm pwpoly_all -> bound d2 nm = if string_dec "pwpoly" nm then Some (MMod (fst (pwpoly_ M))) else if string_dec "solveper" nm then Some (MMod (solveper_ M)) else bound d1 nm).
  { intros nm H. rewrite (O2 nm H), bound_dset. reflexivity. }
  clear O2. exists d5. split; [reflexivity|].
  assert (C : forall nm, ~ In nm lsqfit_all -> nm <> "lsqfit" -> bound d5 nm = bound d4 nm).
  { intros nm H N. rewrite (O5 nm H). destruct (string_dec "lsqfit" nm); congruence. }
  assert (C4 : forall nm, ~ In nm pcwise_all -> nm <> "pcwise" -> bound d4 nm = bound d3 nm).
  { intros nm H N. rewrite (O4 nm H). destruct (string_dec "pcwise" nm); congruence. }
  assert (C3 : forall nm, ~ In nm itemattr_all -> nm <> "itemattr" -> bound d3 nm = bound d2 nm).
  { intros nm H N. rewrite (O3 nm H). destruct (string_dec "itemattr" nm); congruence. }
  assert (C2 : forall nm, ~ In nm pwpoly_all -> nm <> "pwpoly" -> nm <> "solveper" -> bound d2 nm = bound d1 nm).
  { intros nm H N N'. rewrite (O2' nm H). destruct (string_dec "pwpoly" nm); [congruence|]. destruct (string_dec "solveper" nm); congruence. }
  assert (C1 : forall nm, ~ In nm basic_all -> nm <> "basic" -> bound d1 nm = bound d nm).
  { intros nm H N. rewrite (O1 nm H). destruct (string_dec "basic" nm); congruence. }
  assert (NI : forall nm (l : list string), (if in_dec string_dec nm l then true else false) = false -> ~ In nm l) by (intros nm l; destruct (in_dec string_dec nm l); [discriminate|auto]).
  split; [|split; [|split; [|split; [|split; [|split; [|split; [|split; [|split; [|split]]]]]]]]].
  - intros nm H. rewrite <- (I1 nm H). cbn in H. rewrite C, C4, C3, C2; [reflexivity|..];
      (repeat destruct H as [<-|H]; [..|destruct H]); try discriminate; apply NI; vm_compute; reflexivity.
  - intros nm H. rewrite <- (I2 nm H). cbn in H. rewrite C, C4, C3; [reflexivity|..];
      (repeat destruct H as [<-|H]; [..|destruct H]); try discriminate; apply NI; vm_compute; reflexivity.
  - intros nm H. rewrite <- (I3 nm H). cbn in H. rewrite C, C4; [reflexivity|..];
      (repeat destruct H as [<-|H]; [..|destruct H]); try discriminate; apply NI; vm_compute; reflexivity.
  - rewrite C; [apply I4; now left|apply NI; vm_compute; reflexivity|discriminate].
  - exact I5.
  - rewrite C, C4, C3, C2, O1; try discriminate; try (apply NI; vm_compute; reflexivity). reflexivity.
  - rewrite C, C4, C3, O2'; try discriminate; try (apply NI; vm_compute; reflexivity). reflexivity.
  - rewrite C, C4, C3, O2'; try discriminate; try (apply NI; vm_compute; reflexivity). reflexivity.
  - rewrite C, C4, O3; try discriminate; try (apply NI; vm_compute; reflexivity). reflexivity.
  - rewrite O5; try (apply NI; vm_compute; reflexivity). reflexivity.
  - intros nm HE HS. unfold exports in HE. rewrite !in_app_iff in HE.
    assert (forall s, In s submodules -> nm <> s) as NS by (intros s Hs ->; auto).
    rewrite C, C4, C3, C2, C1; try reflexivity; try tauto; apply NS; vm_compute; tauto.
Qed.

(* from npplus.interactive import *, whatever was there before: every export of npplus *)
Theorem C116_interactive : forall npplus own d, exists d', interactive_ns npplus own d = Ok d' /\
  forall nm, bound d' nm = if in_dec string_dec nm ["import_module"; "reload"; "execfile"; "reloadx"] then Some (own nm)
    else match bound npplus nm with Some v => if prefix "_" nm then bound d nm else Some v | None => bound d nm end.
Proof.
  intros npplus own d. unfold interactive_ns, star_into. destruct (star_public npplus) as [D P].
  destruct (star_bind_ok _ _ d D) as (d1 & -> & I & O). cbn [bind fold_left]. eexists. split; [reflexivity|]. intros nm.
  rewrite !bound_dset. cbn [in_dec list_rect].
  destruct (in_dec string_dec nm ["import_module"; "reload"; "execfile"; "reloadx"]) as [J|J].
  - destruct (string_dec "reloadx" nm) as [<-|]; [reflexivity|]. destruct (string_dec "execfile" nm) as [<-|]; [reflexivity|].
    destruct (string_dec "reload" nm) as [<-|]; [reflexivity|]. destruct (string_dec "import_module" nm) as [<-|]; [reflexivity|]. exfalso. cbn in J. tauto.
  - cbn in J. destruct (string_dec "reloadx" nm); [tauto|]. destruct (string_dec "execfile" nm); [tauto|]. destruct (string_dec "reload" nm); [tauto|].
    destruct (string_dec "import_module" nm); [tauto|]. destruct (bound npplus nm) as [v|] eqn:E.
    + destruct (prefix "_" nm) eqn:F.
      * apply O. rewrite P, <- prefix_us. intros [? _]. congruence.
      * rewrite <- E. apply I. rewrite P, <- prefix_us. eauto.
    + apply O. rewrite P. intros [_ [v' ?]]. congruence.
Qed.
(* so all exports of npplus are there *)
Corollary C116_interactive_exports : forall npplus own d d', interactive_ns npplus own d = Ok d' ->
  forall nm v, In nm exports -> bound npplus nm = Some v -> bound d' nm = Some v.
Proof.
  intros npplus own d d' E nm v H B. destruct (C116_interactive npplus own d) as (d2 & E2 & G). assert (d2 = d') by congruence. subst d2.
  rewrite G, B. assert (prefix "_" nm = false) as -> by (apply prefix_us; destruct C116_all as (_ & _ & _ & _ & _ & _ & _ & _ & PE & _); rewrite Forall_forall in PE; auto).
  destruct (in_dec string_dec nm ["import_module"; "reload"; "execfile"; "reloadx"]) as [J|J]; [|reflexivity].
  exfalso. revert nm J H B. enough (A : forall nm, In nm ["import_module"; "reload"; "execfile"; "reloadx"] -> ~ In nm exports) by (intros nm J H; exfalso; exact (A nm J H)).
  apply D_dec. vm_compute. reflexivity.
Qed.

(* from npplus.pyplotx.interactive import *: the definitions of mpldefaults win, then the
   wrappers of pltwraps, then pylab, then npplus.interactive; so `title` is the one of
   mpldefaults and the exports of npplus are there unless pylab has the same names *)
Theorem C116_plotx : forall inter pylab_all pylab pltwraps mpldefaults d,
  defines pylab (star_names pylab_all pylab) -> defines pltwraps pltwraps_all2 -> defines mpldefaults mpldefaults_all ->
  exists d', plotx_ns inter pylab_all pylab pltwraps mpldefaults d = Ok d' /\
  (forall nm, In nm mpldefaults_all -> bound d' nm = bound mpldefaults nm) /\
  (forall nm, In nm pltwraps_all2 -> nm <> "title" -> bound d' nm = bound pltwraps nm) /\
  (forall nm, ~ In nm mpldefaults_all -> ~ In nm pltwraps_all2 -> In nm (star_names pylab_all pylab) -> bound d' nm = bound pylab nm) /\
  (forall nm v, ~ In nm mpldefaults_all -> ~ In nm pltwraps_all2 -> ~ In nm (star_names pylab_all pylab) -> public nm -> bound inter nm = Some v -> bound d' nm = Some v) /\
  (forall nm v, In nm exports -> ~ In nm (star_names pylab_all pylab) -> bound inter nm = Some v -> bound d' nm = Some v).
Proof.
  intros inter pylab_all pylab pltwraps mpldefaults d DP DW DM. unfold plotx_ns, star_into. destruct (star_public inter) as [D P].
  destruct (star_bind_ok _ _ d D) as (d1 & -> & I1 & O1). cbn [bind]. destruct (star_bind_ok _ _ d1 DP) as (d2 & -> & I2 & O2). cbn [bind].
  destruct (star_bind_ok _ _ d2 DW) as (d3 & E3 & I3 & O3). change (star_names (Some pltwraps_all2) pltwraps) with pltwraps_all2. rewrite E3. cbn [bind].
  destruct (star_bind_ok _ _ d3 DM) as (d4 & E4 & I4 & O4). exists d4. change (star_names (Some mpldefaults_all) mpldefaults) with mpldefaults_all. split; [exact E4|].
  destruct C116_all as (_ & _ & _ & _ & _ & _ & _ & _ & PE & _ & _ & T & X).
  assert (L : forall nm v, ~ In nm mpldefaults_all -> ~ In nm pltwraps_all2 -> ~ In nm (star_names pylab_all pylab) -> public nm -> bound inter nm = Some v -> bound d4 nm = Some v).
  { intros nm v A B C Pn E. rewrite (O4 nm A), (O3 nm B), (O2 nm C), <- E. apply I1. apply P. eauto. }
  split; [exact I4|]. split; [|split; [|split; [exact L|]]].
  - intros nm H N. rewrite O4; [auto|]. intros J. apply N. apply T. auto.
  - intros nm A B C. rewrite (O4 nm A), (O3 nm B). auto.
  - intros nm v H C E. destruct (X nm H) as [A B]. apply L; auto. rewrite Forall_forall in PE. auto.
Qed.

(* a module without one of the names of its __all__ *)
Theorem C116_missing : forall alls m d, ~ defines m alls -> star_into (Some alls) m d = Err AttributeError.
Proof. intros. apply star_bind_missing. assumption. Qed.

Definition ex_vars (k : nat) (names : list string) : dict mval := map (fun nm => (nm, MObj (k + String.length nm))) names.
Definition ex_mods : npmods := NpMods (1, ex_vars 100 basic_defs) 2 (3, ex_vars 200 pwpoly_defs) (4, ex_vars 300 itemattr_defs) (5, ex_vars 400 pcwise_defs) (6, ex_vars 500 lsqfit_defs).
Lemma ex_defines k names sub : incl sub names -> defines (ex_vars k names) sub.
Proof.
  intros H nm J. apply in_bound. unfold ex_vars. rewrite map_map. cbn. rewrite map_id. auto.
Qed.
Example C116_case : exists d', npplus_init ex_mods [] = Ok d' /\ bound d' "levmar" = Some (MObj 506) /\ bound d' "pcwise" = Some (MObj 406) /\
  bound d' "lsqfit" = Some (MMod 6) /\ bound d' "polyfun" = None.
Proof.
  destruct C116_all as (A1 & A2 & A3 & A4 & A5 & _).
  destruct (C116_npplus ex_mods []) as (d' & E & I1 & I2 & I3 & I4 & I5 & S1 & S2 & S3 & S4 & S5 & O); try (apply ex_defines; assumption).
  exists d'. split; [exact E|]. rewrite I4, S5, (I5 "levmar") by (cbn; auto). split; [reflexivity|]. split; [reflexivity|]. split; [reflexivity|].
  rewrite O; [reflexivity|vm_compute; intuition discriminate|vm_compute; intuition discriminate].
Qed.

(** ** C117: execfile *)
(* execfile of python 2 runs the file in the namespace of the caller if none is given *)
Definition execfile2 {Code} (read : world -> string -> res string) (compile : string -> string -> res Code)
    (exec : world -> Code -> nat -> option nat -> res unit * world) (caller : nat) (w : world) (name : string) (ns : option (nat * option nat)) : res unit * world :=
  match read w name with
  | Err e => (Err e, w)
  | Ok text => match compile text name with
               | Err e => (Err e, w)
               | Ok code => match ns with None => exec w code caller None | Some (g, l) => exec w code g l end
               end
  end.
Theorem C117_execfile_partial : forall Code read (compile : string -> string -> res Code) exec own w name,
  (forall caller g, execfile read compile exec own w (Some (name, [g])) = execfile2 read compile exec caller w name (Some (g, None))) /\
  (forall caller g l, execfile read compile exec own w (Some (name, [g; l])) = execfile2 read compile exec caller w name (Some (g, Some l))) /\
  execfile read compile exec own w (Some (name, [])) = execfile2 read compile exec own w name None /\
  (forall g l x r text code, read w name = Ok text -> compile text name = Ok code -> execfile read compile exec own w (Some (name, g :: l :: x :: r)) = (Err TypeError, w)) /\
  (forall rest e, read w name = Err e -> execfile read compile exec own w (Some (name, rest)) = (Err e, w)) /\
  (forall rest text e, read w name = Ok text -> compile text name = Err e -> execfile read compile exec own w (Some (name, rest)) = (Err e, w)) /\
  execfile read compile exec own w None = (Err IndexError, w).
Proof.
  intros Code read compile exec own w name. unfold execfile, execfile2.
  split; [|split; [|split; [|split; [|split; [|split]]]]]; intros.
  - destruct (read w name) as [t|e]; [|reflexivity]. cbn [bind]. destruct (compile t name); reflexivity.
  - destruct (read w name) as [t|e]; [|reflexivity]. cbn [bind]. destruct (compile t name); reflexivity.
  - destruct (read w name) as [t|e]; [|reflexivity]. cbn [bind]. destruct (compile t name); reflexivity.
  - rewrite H. cbn [bind]. rewrite H0. reflexivity.
  - rewrite H. reflexivity.
  - rewrite H. cbn [bind]. rewrite H0. reflexivity.
  - reflexivity.
Qed.
(* a file that binds x, run at the terminal *)
Definition ex_exec (w : world) (_ : unit) (g : nat) (l : option nat) : res unit * world :=
  let t := match l with Some t => t | None => g end in (Ok tt, set_mods w t (dset (mods w t) "x" (MObj 7))).
(* "python2 execfile": no, without a namespace the file is run in that of npplus.interactive,
   so that the caller does not see its definitions *)
Theorem C117_execfile_refuted :
  ~ (forall Code read (compile : string -> string -> res Code) exec own caller w name,
       execfile read compile exec own w (Some (name, [])) = execfile2 read compile exec caller w name None) /\
  let w := World [] (fun _ => []) (fun _ _ => false) in
  let w' := snd (execfile (fun _ _ => Ok "x = 7") (fun _ _ => Ok tt) ex_exec 1 w (Some ("f.py", []))) in
  bound (mods w' 0%nat) "x" = None /\ bound (mods w' 1%nat) "x" = Some (MObj 7).
Proof.
  split; [|vm_compute; auto]. intros H.
  specialize (H unit (fun _ _ => Ok "x = 7") (fun _ _ => Ok tt) ex_exec 1%nat 0%nat (World [] (fun _ => []) (fun _ _ => false)) "f.py").
  apply (f_equal (fun r => bound (mods (snd r) 0%nat) "x")) in H. vm_compute in H. discriminate.
Qed.

Print Assumptions C116_npplus.
Print Assumptions C116_plotx.
Print Assumptions C117_execfile_refuted.
