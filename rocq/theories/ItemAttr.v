(* Model of npplus/itemattr.py.

   Python attribute lookup is modelled by giving, for an object's class, the
   function `cattr` from names to class attributes (methods and so on).  Keys are
   strings; other keys cannot be reached through attributes. *)
From Coq Require Import String Ascii List Arith Bool.
From Verif Require Import PyBase.
Import ListNotations.
Local Open Scope res_scope.
Local Open Scope string_scope.

(* str.startswith('__') *)
Definition dunder (s : string) : bool := prefix "__" s.
(* str.endswith('_') and s[:-1] *)
Fixpoint ends_us (s : string) : bool :=
  match s with
  | "" => false
  | String a "" => Ascii.eqb a "_"
  | String _ r => ends_us r
  end.
Fixpoint drop_last (s : string) : string :=
  match s with
  | "" => ""
  | String a "" => ""
  | String a r => String a (drop_last r)
  end.
(* ItemsAreAttrs.name2key, itemattr.py:50-52 *)
Definition name2key (name : string) : string := if ends_us name then drop_last name else name.

(* the builtin dict: association list in insertion order *)
Section Dict.
  Context {V : Type}.
  Definition dict := list (string * V).
  Fixpoint dget (d : dict) (k : string) : res V :=
    match d with
    | [] => Err KeyError
    | (k', v) :: r => if k' =? k then Ok v else dget r k
    end.
  Fixpoint dset (d : dict) (k : string) (v : V) : dict :=
    match d with
    | [] => [(k, v)]
    | (k', v') :: r => if k' =? k then (k', v) :: r else (k', v') :: dset r k v
    end.
  Fixpoint ddel (d : dict) (k : string) : res dict :=
    match d with
    | [] => Err KeyError
    | (k', v') :: r => if k' =? k then Ok r else rmap (cons (k', v')) (ddel r k)
    end.
End Dict.
Arguments dict : clear implicits.

Section Attr.
  Context {V A : Type}.  (* item values; class attributes *)
  (* what reading an attribute gives *)
  Inductive gotten := FromClass (a : A) | FromItem (v : V).
  Definition item (r : res V) : res gotten := rmap FromItem r.

  (* ADict, itemattr.py:193-200.  __getattr__ is called only when the normal
     lookup fails; __slots__ = [] so there are no instance attributes. *)
  Variable cattr : string -> option A.
  Definition adict_get (d : dict V) (name : string) : res gotten :=
    match cattr name with
    | Some a => Ok (FromClass a)
    | None => item (dget d (name2key name))
    end.
  Definition adict_set (d : dict V) (name : string) (v : V) : dict V := dset d (name2key name) v.
  Definition adict_del (d : dict V) (name : string) : res (dict V) := ddel d (name2key name).

  (* a mapping class to be decorated: its states and item operations *)
  Variable S : Type.
  Variable getitem : S -> string -> res V.
  Variable setitem : S -> string -> V -> res S.
  Variable delitem : S -> string -> res S.
  (* object.__getattribute__ *)
  Definition obj_get (name : string) : res gotten :=
    match cattr name with Some a => Ok (FromClass a) | None => Err AttributeError end.
  (* ItemsAreAttrs.get/set/delete, itemattr.py:54-68 *)
  Definition iaa_get (names : list string) (x : S) (name : string) : res gotten :=
    if dunder name || existsb (String.eqb name) names then obj_get name
    else item (getitem x (name2key name)).
  Definition iaa_set (x : S) (name : string) (v : V) : res S :=
    if dunder name then Err ValueError else setitem x (name2key name) v.
  Definition iaa_del (x : S) (name : string) : res S :=
    if dunder name then Err ValueError else delitem x (name2key name).

  (* classes: dir(cls), and the class __dict__ as far as it is looked at (for
     method containers; `get` takes the class attribute list of the decorated
     class as it finds it in self) *)
  Inductive cmeth :=
  | CGet (f : list string -> S -> string -> res gotten)
  | CSet (f : S -> string -> V -> res S)
  | CDel (f : S -> string -> res S).
  Record cls := Cls { cdir : list string; cdict : list (string * cmeth) }.
  Definition ItemsAreAttrs : cls :=
    Cls ["decorator_argument"; "name2key"; "get"; "set"; "delete"]
        [("get", CGet iaa_get); ("set", CSet iaa_set); ("delete", CDel iaa_del)].
  Definition has_attr (c : cls) (n : string) : bool := existsb (String.eqb n) (cdir c).
  (* the outcome of items_are_attrs: a decorator waiting for its class, or the
     decorated class with its three special methods *)
  Inductive decorated :=
  | Partial (methods : cls)
  | Class (c : cls) (names : list string) (mget mset mdel : cmeth).
  (* items_are_attrs, itemattr.py:130-142 *)
  Definition items_are_attrs (c : option cls) (methods : cls) : res decorated :=
    let c := match c with
             | Some m => if has_attr m "decorator_argument" then None else Some m
             | None => None
             end in
    match c with
    | None => Ok (Partial methods)
    | Some c =>
      let names := filter (fun n => negb (dunder n)) (cdir c) in
      let! g := dget (cdict methods) "get" in
      let! s := dget (cdict methods) "set" in
      let! d := dget (cdict methods) "delete" in
      Ok (Class c names g s d)
    end.
  (* applying a Partial: partial(items_are_attrs, methods=methods)(c) *)
  Definition apply_partial (p : decorated) (c : cls) : res decorated :=
    match p with
    | Partial m => items_are_attrs (Some c) m
    | Class _ _ _ _ _ => Err TypeError
    end.
End Attr.
Arguments gotten : clear implicits.
Arguments cls : clear implicits.
Arguments cmeth : clear implicits.
Arguments decorated : clear implicits.

(* redict, itemattr.py:206-236, on a heap of dict objects *)
Section Redict.
  Context {V : Type}.
  (* dict, ADict, or some other subclass of dict (flag: of ADict) whose constructor
     copies its argument like dict does *)
  Inductive dcls := CDict | CADict | CUser (id : nat) (sub_adict : bool).
  Definition is_adict (c : dcls) : bool :=
    match c with CDict => false | CADict => true | CUser _ b => b end.
  Inductive value := VLeaf (v : V) | VRef (r : nat).
  Record obj := Obj { ocls : dcls; oitems : dict value }.
  Definition heap := list obj.
  (* d[k] = v for the dict object at r *)
  Definition hset (h : heap) (r : nat) (k : string) (v : value) : heap :=
    match nth_error h r with
    | Some o => upd r (Obj (ocls o) (dset (oitems o) k v)) h
    | None => h
    end.
  (* None: recursion limit or dangling reference *)
  Fixpoint redict (fuel : nat) (h : heap) (d : nat) (c : option dcls) : option (heap * nat) :=
    match fuel with
    | 0 => None
    | S fuel =>
      match nth_error h d with
      | None => None
      | Some o =>
        let c := match c with
                 | Some c => c
                 | None => if is_adict (ocls o) then CDict else CADict
                 end in
        let dnew := length h in
        (fix loop (l : dict value) (h : heap) : option (heap * nat) :=
           match l with
           | [] => Some (h, dnew)
           | (_, VLeaf _) :: l => loop l h
           | (k, VRef r) :: l =>
             match redict fuel h r (Some c) with
             | Some (h', r') => loop l (hset h' dnew k (VRef r'))
             | None => None
             end
           end) (oitems o) (h ++ [Obj c (oitems o)])%list
      end
    end.
End Redict.
Arguments value : clear implicits.
Arguments obj : clear implicits.
Arguments heap : clear implicits.
