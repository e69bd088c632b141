(* C79, C86: reloadx. *)
From Coq Require Import String Ascii List Arith Bool Lia.
From Verif Require Import PyBase ItemAttr PropsItemAttr Interactive.
Import ListNotations.
Local Open Scope string_scope.

(** ** Spec *)
(* the value of a name of a module, if it is bound *)
Fixpoint bound (d : dict mval) (nm : string) : option mval :=
  match d with
  | [] => None
  | (k, v) :: r => if string_dec k nm then Some v else bound r nm
  end.
(* names of the form __...__: at least two characters, the first two and the last two
   are underscores *)
Definition dunder_name (nm : string) : Prop :=
  (exists s, nm = "__" ++ s) /\ (exists s, nm = s ++ "__").

(** ** Lemmas *)
Lemma bound_dget d nm : bound d nm = match dget d nm with Ok v => Some v | Err _ => None end.
Proof.
  induction d as [|[k v] d IH]; cbn; [reflexivity|]. destruct (string_dec k nm) as [->|N].
  - now rewrite String.eqb_refl.
  - apply String.eqb_neq in N. now rewrite N.
Qed.
Lemma bound_dset d k v nm : bound (dset d k v) nm = if string_dec k nm then Some v else bound d nm.
Proof.
  rewrite !bound_dget, dget_dset. destruct (string_dec k nm) as [->|N].
  - now rewrite String.eqb_refl.
  - apply String.eqb_neq in N. now rewrite N.
Qed.
Lemma bound_in d nm v : bound d nm = Some v -> In nm (map fst d).
Proof.
  induction d as [|[k w] d IH]; cbn; [discriminate|]. destruct (string_dec k nm) as [->|N]; auto.
Qed.
Lemma in_bound d nm : In nm (map fst d) -> exists v, bound d nm = Some v.
Proof.
  induction d as [|[k w] d IH]; cbn; [easy|]. destruct (string_dec k nm) as [->|N]; eauto.
  intros [E|H]; [congruence|auto].
Qed.
Lemma append_length a b : String.length (a ++ b) = (String.length a + String.length b)%nat.
Proof. induction a as [|c a IH]; cbn; auto. Qed.
Lemma substring_app a b : substring (String.length a) (String.length b) (a ++ b) = b.
Proof.
  induction a as [|c a IH]; cbn; auto. induction b as [|c b IH]; cbn; auto. now rewrite IH.
Qed.
Lemma substring_split s : forall n, (n <= String.length s)%nat ->
  s = substring 0 n s ++ substring n (String.length s - n) s.
Proof.
  induction s as [|c s IH]; intros n H; cbn in *.
  - assert (n = 0)%nat by lia. subst. reflexivity.
  - destruct n as [|n]; cbn.
    + f_equal. specialize (IH 0%nat ltac:(lia)). rewrite Nat.sub_0_r in IH. clear -IH.
      rewrite IH at 1. destruct s; reflexivity.
    + f_equal. apply IH. lia.
Qed.
Lemma prefix_app a b : prefix a (a ++ b) = true.
Proof. induction a as [|c a IH]; cbn; [now destruct b|]. now destruct (Ascii.ascii_dec c c). Qed.
Lemma prefix_inv a s : prefix a s = true -> exists b, s = a ++ b.
Proof.
  revert s; induction a as [|c a IH]; intros s H; [now exists s|]. destruct s as [|d s]; [discriminate|].
  cbn in H. destruct (Ascii.ascii_dec c d) as [->|]; [|discriminate]. destruct (IH s H) as (b & ->). now exists b.
Qed.
Lemma is_dunder_spec nm : is_dunder nm = true <-> dunder_name nm.
Proof.
  unfold is_dunder, dunder, ends_dunder, dunder_name. rewrite !andb_true_iff. split.
  - intros [P [L E]]. split; [now apply prefix_inv|]. apply Nat.leb_le in L. apply String.eqb_eq in E.
    exists (substring 0 (String.length nm - 2) nm). rewrite <- E.
    rewrite (substring_split nm (String.length nm - 2)) at 1 by lia. f_equal.
    f_equal. lia.
  - intros [[s ->] [t E]]. split; [apply prefix_app|]. rewrite E. clear E. rewrite append_length. cbn [String.length].
    split; [apply Nat.leb_le; lia|]. apply String.eqb_eq.
    replace (String.length t + 2 - 2)%nat with (String.length t) by lia. apply (substring_app t "__").
Qed.

Section Proofs.
Variable reload : world -> nat -> res unit * world.
Variable import_module : world -> string -> res nat * world.
Variable main : nat.
Notation publish := (rx_publish main).
Definition pub_step l := (fun w nm =>
    if is_dunder nm then w
    else match dget (mods w l) nm with
         | Ok v => set_mods w main (dset (mods w main) nm v)
         | Err _ => w
         end).
(* the loop over any list of names *)
Lemma publish_loop l ks : forall w,
  let w' := fold_left (pub_step l) ks w in
  sysmods w' = sysmods w /\ dyn w' = dyn w /\
  (forall k, k <> main -> mods w' k = mods w k) /\
  (forall nm, bound (mods w' l) nm = bound (mods w l) nm) /\
  (forall nm, bound (mods w' main) nm =
     if in_dec string_dec nm ks then
       if is_dunder nm then bound (mods w main) nm
       else match bound (mods w l) nm with Some v => Some v | None => bound (mods w main) nm end
     else bound (mods w main) nm).
Proof.
  induction ks as [|k ks IH]; intros w; cbn [fold_left].
  { cbv zeta. repeat split; auto. }
  specialize (IH (pub_step l w k)). cbv zeta in *. destruct IH as (A & B & C & D & E).
  assert (S1 : sysmods (pub_step l w k) = sysmods w /\ dyn (pub_step l w k) = dyn w /\
    (forall j, j <> main -> mods (pub_step l w k) j = mods w j) /\
    (forall nm, bound (mods (pub_step l w k) main) nm =
       if string_dec k nm then
         if is_dunder k then bound (mods w main) nm
         else match bound (mods w l) k with Some v => Some v | None => bound (mods w main) nm end
       else bound (mods w main) nm)).
  { unfold pub_step. destruct (is_dunder k) eqn:Dk.
    - repeat split; auto. intros nm. destruct (string_dec k nm); reflexivity.
    - rewrite (bound_dget (mods w l) k). destruct (dget (mods w l) k) as [v|e].
      + repeat split; auto.
        * intros j Hj. cbn. apply Nat.eqb_neq in Hj. now rewrite Hj.
        * intros nm. cbn. rewrite Nat.eqb_refl, bound_dset. reflexivity.
      + repeat split; auto. intros nm. destruct (string_dec k nm); reflexivity. }
  destruct S1 as (A1 & B1 & C1 & E1).
  assert (D1 : forall nm, bound (mods (pub_step l w k) l) nm = bound (mods w l) nm).
  { intros nm. destruct (Nat.eq_dec l main) as [->|N]; [|now rewrite C1].
    rewrite E1. destruct (string_dec k nm) as [->|]; auto. destruct (is_dunder nm); auto.
    destruct (bound (mods w main) nm); auto. }
  repeat split.
  - congruence.
  - congruence.
  - intros j Hj. rewrite C, C1; auto.
  - intros nm. rewrite D, D1. reflexivity.
  - intros nm. rewrite E, D1, E1. cbn [in_dec].
    destruct (in_dec string_dec nm (k :: ks)) as [I|I]; destruct (in_dec string_dec nm ks) as [J|J];
    destruct (string_dec k nm) as [->|N]; try (exfalso; cbn in I; tauto); auto;
    destruct (is_dunder nm); auto; destruct (bound (mods w l) nm); auto.
Qed.
Lemma publish_ok w l :
  let w' := publish w l in
  sysmods w' = sysmods w /\ dyn w' = dyn w /\
  (forall k, k <> main -> mods w' k = mods w k) /\
  (forall nm, bound (mods w' l) nm = bound (mods w l) nm) /\
  (forall nm, bound (mods w' main) nm =
     if is_dunder nm then bound (mods w main) nm
     else match bound (mods w l) nm with Some v => Some v | None => bound (mods w main) nm end).
Proof.
  pose proof (publish_loop l (map fst (mods w l)) w) as H. cbv zeta in *.
  change (fold_left (pub_step l) (map fst (mods w l)) w) with (publish w l) in H.
  destruct H as (A & B & C & D & E). repeat split; auto. intros nm. rewrite E.
  destruct (in_dec string_dec nm (map fst (mods w l))) as [I|I]; auto.
  destruct (is_dunder nm); auto. destruct (bound (mods w l) nm) eqn:Bn; auto.
  apply bound_in in Bn. contradiction.
Qed.

(** ** C79 *)
(* The world w1 is the one after the (re)load, which gave module l.  Then: what
   __main__ has, what the module has, and what everything else has. *)
Theorem C79_reloadx : forall w m w',
  reloadx reload import_module main w m = (Ok tt, w') ->
  exists l w1, rx_module reload import_module w m = (Ok l, w1) /\
  (* every name of the module that is not dunder-named *)
  (forall nm v, bound (mods w1 l) nm = Some v -> ~ dunder_name nm -> bound (mods w' main) nm = Some v) /\
  (* the other names of __main__ *)
  (forall nm, dunder_name nm \/ bound (mods w1 l) nm = None -> l <> main \/ nm <> "my" ->
     bound (mods w' main) nm = bound (mods w1 main) nm) /\
  (* `my` *)
  (forall v, bound (mods w1 l) "my" = Some v -> bound (mods w' l) "my" = Some v) /\
  (bound (mods w1 l) "my" = None -> dyn w1 l "my" = true -> bound (mods w' l) "my" = None) /\
  (bound (mods w1 l) "my" = None -> dyn w1 l "my" = false -> bound (mods w' l) "my" = Some (MMod main)) /\
  (* the other names of the module, the other modules, sys.modules *)
  (forall nm, nm <> "my" -> bound (mods w' l) nm = bound (mods w1 l) nm) /\
  (forall k, k <> l -> k <> main -> mods w' k = mods w1 k) /\
  sysmods w' = sysmods w1 /\ dyn w' = dyn w1.
Proof.
  intros w m w'. unfold reloadx. destruct (rx_module reload import_module w m) as [[l|e] w1] eqn:R; [|discriminate].
  intros H. injection H as <-. exists l, w1. split; [reflexivity|].
  pose proof (publish_ok w1 l) as P. cbv zeta in P. set (w2 := publish w1 l) in *.
  destruct P as (A & B & C & D & E).
  assert (M : (forall k, k <> l -> mods (rx_my main w2 l) k = mods w2 k) /\
     (forall nm, bound (mods (rx_my main w2 l) l) nm =
        if string_dec "my" nm then match bound (mods w1 l) "my" with Some v => Some v
           | None => if dyn w1 l "my" then None else Some (MMod main) end
        else bound (mods w1 l) nm) /\
     sysmods (rx_my main w2 l) = sysmods w1 /\ dyn (rx_my main w2 l) = dyn w1).
  { unfold rx_my. rewrite <- B. rewrite <- (D "my"). rewrite (bound_dget (mods w2 l) "my").
    destruct (dget (mods w2 l) "my") as [v|x] eqn:G.
    - repeat split; auto. intros nm. destruct (string_dec "my" nm) as [<-|N]; auto. cbn [sysmods]. now rewrite bound_dget, G.
    - destruct (dyn w2 l "my").
      + repeat split; auto. intros nm. destruct (string_dec "my" nm) as [<-|N]; auto. cbn [sysmods]. now rewrite bound_dget, G.
      + repeat split; cbn [set_mods sysmods dyn mods]; auto.
        * intros k Hk. apply Nat.eqb_neq in Hk. now rewrite Hk.
        * intros nm. rewrite Nat.eqb_refl, bound_dset. destruct (string_dec "my" nm); [reflexivity|apply D]. }
  destruct M as (M1 & M2 & M3 & M4).
  assert (Main : forall nm, l <> main \/ nm <> "my" \/ bound (mods w1 l) nm <> None ->
     bound (mods (rx_my main w2 l) main) nm = bound (mods w2 main) nm).
  { intros nm H. destruct (Nat.eq_dec main l) as [<-|N]; [|now rewrite M1].
    rewrite M2, D. destruct (string_dec "my" nm) as [<-|N]; auto. destruct H as [H|[H|H]]; try congruence.
    destruct (bound (mods w1 main) "my"); congruence. }
  repeat split; auto.
  - intros nm v Bv Nd. rewrite Main, E by (right; right; congruence). rewrite <- is_dunder_spec in Nd.
    apply not_true_is_false in Nd. rewrite Nd, Bv. reflexivity.
  - intros nm Hn Hm. rewrite Main, E by tauto. destruct (is_dunder nm) eqn:Dn; auto.
    destruct Hn as [Hn|Hn]; [apply is_dunder_spec in Hn; congruence|]. now rewrite Hn.
  - intros v Bv. rewrite M2. destruct (string_dec "my" "my"); [now rewrite Bv|congruence].
  - intros Bv Dv. rewrite M2. destruct (string_dec "my" "my"); [now rewrite Bv, Dv|congruence].
  - intros Bv Dv. rewrite M2. destruct (string_dec "my" "my"); [now rewrite Bv, Dv|congruence].
  - intros nm N. rewrite M2. destruct (string_dec "my" nm); [congruence|reflexivity].
  - intros k Hl Hm. rewrite M1, C by auto. reflexivity.
Qed.

(* A module object is reloaded, and that is all that happens to it before its names
   are published; a name is imported from scratch: its entry in sys.modules is removed
   before, every other entry is kept. *)
Theorem C79_how : forall w m,
  match m with
  | AMod l => rx_module reload import_module w m =
      match reload w l with (Ok _, w1) => (Ok l, w1) | (Err e, w1) => (Err e, w1) end
  | AName s => exists w0, rx_module reload import_module w m = import_module w0 s /\
      mods w0 = mods w /\ dyn w0 = dyn w /\
      (NoDup (map fst (sysmods w)) -> ~ In s (map fst (sysmods w0)) /\
        forall k, k <> s -> dget (sysmods w0) k = dget (sysmods w) k)
  | AOther hashable => rx_module reload import_module w m = (Err (if hashable then AttributeError else TypeError), w)
  end.
Proof.
  intros w [l|s|h]; cbn.
  - destruct (reload w l) as [[u|e] w1]; reflexivity.
  - destruct (ddel (sysmods w) s) as [d|e] eqn:Dd.
    + eexists; split; [reflexivity|]. split; [reflexivity|]. split; [reflexivity|]. cbn [sysmods]. intros ND.
      destruct (dget_cases (sysmods w) s) as [G|[v G]].
      { rewrite (ddel_none _ _ G) in Dd. discriminate. }
      destruct (ddel_some _ _ _ ND G) as (d' & Ed & Hd). rewrite Dd in Ed. injection Ed as <-.
      split.
      * apply dget_none. destruct Hd as (_ & _ & Hd). specialize (Hd s). now rewrite String.eqb_refl in Hd.
      * intros k Hk. destruct Hd as (_ & _ & Hd). rewrite Hd. assert (E : (s =? k) = false) by (apply String.eqb_neq; congruence).
        now rewrite E.
    + exists w. split; [reflexivity|]. split; [reflexivity|]. split; [reflexivity|]. intros ND.
      split; auto. apply dget_none. destruct (dget_cases (sysmods w) s) as [G|[v G]]; auto.
      destruct (ddel_some _ _ _ ND G) as (d' & Ed & _). congruence.
  - destruct h; reflexivity.
Qed.
(* if the code of the module raises, nothing is published and `my` is not set *)
Theorem C79_errors : forall w m e w', reloadx reload import_module main w m = (Err e, w') <->
  rx_module reload import_module w m = (Err e, w').
Proof.
  intros w m e w'. unfold reloadx. destruct (rx_module reload import_module w m) as [[l|e1] w1].
  - split; discriminate.
  - split; congruence.
Qed.
(* Finding: the injected name is published by the next reloadx, since reload keeps the
   namespace: whatever __main__ had under the name `my` is replaced by __main__ itself. *)
Theorem C79_my_leaks : forall w l w1 w2,
  (forall v u, reload v l = (Ok tt, u) -> bound (mods u l) "my" = bound (mods v l) "my") ->
  bound (mods w l) "my" = None -> dyn w1 l "my" = false ->
  reloadx reload import_module main w (AMod l) = (Ok tt, w1) ->
  reloadx reload import_module main w1 (AMod l) = (Ok tt, w2) ->
  bound (mods w2 main) "my" = Some (MMod main).
Proof.
  intros w l w1 w2 R B Dy H H'.
  destruct (C79_reloadx _ _ _ H) as (l1 & v & E & _ & _ & _ & _ & M & _ & _ & _ & Dv).
  destruct (C79_reloadx _ _ _ H') as (l2 & v' & E' & P & _).
  cbn in E, E'. destruct (reload w l) as [[[]|e] u] eqn:R1; [|discriminate]. injection E as <- <-.
  destruct (reload w1 l) as [[[]|e] u'] eqn:R2; [|discriminate]. injection E' as <- <-.
  apply P.
  - rewrite (R _ _ R2). apply M; [now rewrite (R _ _ R1)|]. now rewrite <- Dv.
  - rewrite <- is_dunder_spec. discriminate.
Qed.

(** ** C86: reload(module); from module import * *)
Theorem C86_partial : forall w m w' alls,
  reloadx reload import_module main w m = (Ok tt, w') ->
  exists l w1, rx_module reload import_module w m = (Ok l, w1) /\
  forall nm v, In nm (star_names alls (mods w1 l)) -> bound (mods w1 l) nm = Some v ->
    ~ dunder_name nm -> bound (mods w' main) nm = Some v.
Proof.
  intros w m w' alls H. destruct (C79_reloadx _ _ _ H) as (l & w1 & E & P & _). eauto 10.
Qed.
End Proofs.

(** ** Concrete cases *)
(* __main__ is module 0, a module "m" with names f, _g, __doc__ is module 1 *)
Definition ex_main : dict mval := [("x", MObj 5); ("f", MObj 6); ("__doc__", MObj 7)].
Definition ex_mod : dict mval := [("__doc__", MObj 1); ("f", MObj 2); ("_g", MObj 3)].
Definition ex_world : world :=
  World [("__main__", 0); ("m", 1)]%nat (fun l => if (l =? 0)%nat then ex_main else ex_mod) (fun _ _ => false).
Definition ex_reload (w : world) (l : nat) : res unit * world := (Ok tt, w).
Definition ex_import (w : world) (s : string) : res nat * world :=
  if s =? "m" then (Ok 1%nat, World (dset (sysmods w) s 1%nat) (mods w) (dyn w)) else (Err KeyError, w).
Example ex_C79 : let (r, w) := reloadx ex_reload ex_import 0 ex_world (AMod 1) in
  r = Ok tt /\
  mods w 0%nat = [("x", MObj 5); ("f", MObj 2); ("__doc__", MObj 7); ("_g", MObj 3)] /\
  mods w 1%nat = [("__doc__", MObj 1); ("f", MObj 2); ("_g", MObj 3); ("my", MMod 0)].
Proof. vm_compute. auto. Qed.
Example ex_C79_name : let (r, w) := reloadx ex_reload ex_import 0 ex_world (AName "m") in
  r = Ok tt /\ bound (mods w 0%nat) "f" = Some (MObj 2) /\ sysmods w = [("__main__", 0); ("m", 1)]%nat.
Proof. vm_compute. auto. Qed.
Example ex_C79_missing : reloadx ex_reload ex_import 0 ex_world (AName "nope") = (Err KeyError, ex_world).
Proof. reflexivity. Qed.
(* the second call publishes `my` *)
Example ex_C79_twice : let (r, w) := reloadx ex_reload ex_import 0 ex_world (AMod 1) in
  bound (mods w 0%nat) "my" = None /\
  let (r', w') := reloadx ex_reload ex_import 0 w (AMod 1) in bound (mods w' 0%nat) "my" = Some (MMod 0).
Proof. vm_compute. auto. Qed.
Example ex_dunder : is_dunder "__" = true /\ is_dunder "__doc__" = true /\ is_dunder "__x" = false /\
  is_dunder "x__" = false /\ is_dunder "_" = false.
Proof. repeat split. Qed.
(* "shorthand for reload(module); from module import *": no.  A name with a leading
   underscore, or one that __all__ leaves out, is published as well; a dunder name of
   __all__ is not published. *)
Theorem C86_refuted :
  ~ (forall reload import_module main w l w' alls,
      reloadx reload import_module main w (AMod l) = (Ok tt, w') -> l <> main ->
      exists w1, reload w l = (Ok tt, w1) /\
      forall nm, bound (mods w' main) nm =
        if in_dec string_dec nm (star_names alls (mods w1 l))
        then match bound (mods w1 l) nm with Some v => Some v | None => bound (mods w1 main) nm end
        else bound (mods w1 main) nm).
Proof.
  intros H.
  destruct (H ex_reload ex_import 0%nat ex_world 1%nat
    (snd (reloadx ex_reload ex_import 0 ex_world (AMod 1))) None eq_refl ltac:(lia)) as (w1 & E & G).
  injection E as <-. specialize (G "_g"). vm_compute in G. discriminate.
Qed.
Theorem C86_all_refuted :
  exists w l nm v, star_names (Some ["f"; "__doc__"]) (mods w l) = ["f"; "__doc__"] /\
    bound (mods w l) nm = Some v /\
    ((~ In nm ["f"; "__doc__"] /\ bound (mods (snd (reloadx ex_reload ex_import 0 w (AMod l))) 0%nat) nm = Some v)) /\
    exists v', bound (mods w l) "__doc__" = Some v' /\
      bound (mods (snd (reloadx ex_reload ex_import 0 w (AMod l))) 0%nat) "__doc__" <> Some v'.
Proof.
  exists ex_world, 1%nat, "_g", (MObj 3). repeat split.
  - cbn. intuition discriminate.
  - exists (MObj 1). split; [reflexivity|]. vm_compute. discriminate.
Qed.

Print Assumptions C79_reloadx.
Print Assumptions C79_how.
Print Assumptions C86_refuted.
