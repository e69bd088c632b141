(* The names that the packages offer: the star imports of /repo/npplus/__init__.py,
   /repo/npplus/interactive.py and /repo/npplus/pyplotx/interactive.py, and execfile.

   A module is a position in the world, its namespace a dict (Interactive.v).
   Simplification: python 3, so that basic.py:46-48 adds nothing to __all__. *)
From Coq Require Import String List Arith Bool.
From Verif Require Import PyBase ItemAttr Interactive Pyplotx.
Import ListNotations.
Local Open Scope res_scope.
Local Open Scope string_scope.

(* the lists __all__ of the modules *)
(* basic.py:37-38 *)
Definition basic_all : list string := ["span"; "spanl"; "cat_"; "a_"; "max_"; "min_"; "abs_"; "atan"; "cum"; "zcen"; "pcen"].
(* pwpoly.py:52 *)
Definition pwpoly_all : list string := ["PwPoly"; "PerPwPoly"; "spline"; "pline"; "splfit"; "plfit"].
(* itemattr.py:41 *)
Definition itemattr_all : list string := ["items_are_attrs"; "ADict"; "redict"].
(* pcwise.py:27 *)
Definition pcwise_all : list string := ["pcwise"].
(* lsqfit.py:30 *)
Definition lsqfit_all : list string := ["regress"; "levmar"; "LevmarError"].
(* pltwraps.py:20-30 and 98 *)
Definition pltwraps_all2 : list string := pltwraps_all ++ ["xylim"; "logxy"].
(* mpldefaults.py:28-29 *)
Definition mpldefaults_all : list string := ["magma"; "inferno"; "plasma"; "viridis"; "CBQ"; "title"; "style_npp"].

(* what the modules define by def, class or an import of the name, besides the imports from numpy and scipy *)
(* basic.py:51-433 *)
Definition basic_defs : list string := ["asfarray"; "span"; "spanl"; "cat_"; "a_"; "max_"; "min_"; "abs_"; "atan"; "cum"; "zcen"; "pcen"].
(* pwpoly.py:61, 64-1541 *)
Definition pwpoly_defs : list string := ["solve_periodic"; "solves_periodic"; "solves_banded"; "asfarray"; "PwPoly"; "PerPwPoly"; "spline"; "pline";
  "_plfitter"; "plfit"; "splfit"; "_bico"; "_splfit_setup"; "_splfit_args"; "polyfun"; "polyddx"; "_polysetup"].
(* itemattr.py:44-236 *)
Definition itemattr_defs : list string := ["ItemsAreAttrs"; "items_are_attrs"; "ADict"; "redict"; "_iteritems"].
(* pcwise.py:33-88 *)
Definition pcwise_defs : list string := ["pcwise"; "_value_error_func"].
(* lsqfit.py:40-560 *)
Definition lsqfit_defs : list string := ["asfarray"; "regress"; "levmar"; "ModelFit"; "numerical_partials"; "LevmarError"].
(* pltwraps.py:32-95: the loop over __all__ binds every name (C89) *)
Definition pltwraps_defs : list string := ["_wraps"; "plt"; "_iwrap"] ++ pltwraps_all ++ ["_"; "xylim"; "logxy"].
(* mpldefaults.py:31-117 *)
Definition mpldefaults_defs : list string := ["plt"; "rc"; "rcParams"; "CBQ"; "magma"; "inferno"; "plasma"; "viridis"; "style_npp"; "title"].

(* from m import * in a module with the namespace d: the names of __all__, or those without a
   leading underscore; a name of __all__ that m does not have raises AttributeError *)
Fixpoint star_bind (names : list string) (m d : dict mval) : res (dict mval) :=
  match names with
  | [] => Ok d
  | nm :: r => match dget m nm with Ok v => star_bind r m (dset d nm v) | Err _ => Err AttributeError end
  end.
Definition star_into (alls : option (list string)) (m d : dict mval) : res (dict mval) := star_bind (star_names alls m) m d.

(* from .name import * in a package: the import system binds the submodule (a position) in the
   package when it is loaded, after the submodules that it loads itself; then its names follow *)
Definition load_star (deps : list (string * nat)) (name : string) (l : nat) (alls : option (list string)) (m d : dict mval) : res (dict mval) :=
  star_into alls m (dset (fold_left (fun d s => dset d (fst s) (MMod (snd s))) deps d) name (MMod l)).

(* positions and namespaces of the submodules of npplus *)
Record npmods := NpMods { basic_ : nat * dict mval; solveper_ : nat; pwpoly_ : nat * dict mval; itemattr_ : nat * dict mval;
                          pcwise_ : nat * dict mval; lsqfit_ : nat * dict mval }.
(* __init__.py:131-135; pwpoly imports solveper, pwpoly.py:61 *)
Definition npplus_init (M : npmods) (d : dict mval) : res (dict mval) :=
  let! d := load_star [] "basic" (fst (basic_ M)) (Some basic_all) (snd (basic_ M)) d in
  let! d := load_star [("solveper", solveper_ M)] "pwpoly" (fst (pwpoly_ M)) (Some pwpoly_all) (snd (pwpoly_ M)) d in
  let! d := load_star [] "itemattr" (fst (itemattr_ M)) (Some itemattr_all) (snd (itemattr_ M)) d in
  let! d := load_star [] "pcwise" (fst (pcwise_ M)) (Some pcwise_all) (snd (pcwise_ M)) d in
  load_star [] "lsqfit" (fst (lsqfit_ M)) (Some lsqfit_all) (snd (lsqfit_ M)) d.

(* interactive.py:35-53 on the namespace d made by interactive.py:17-32 (numpy and the standard
   library); the package npplus has no __all__.  own: the objects of the names defined here *)
Definition interactive_ns (npplus : dict mval) (own : string -> mval) (d : dict mval) : res (dict mval) :=
  let! d := star_into None npplus d in
  Ok (fold_left (fun d nm => dset d nm (own nm)) ["import_module"; "reload"; "execfile"; "reloadx"] d).

(* pyplotx/interactive.py:22-35 *)
Definition plotx_ns (inter : dict mval) (pylab_all : option (list string)) (pylab pltwraps mpldefaults d : dict mval) : res (dict mval) :=
  let! d := star_into None inter d in
  let! d := star_into pylab_all pylab d in
  let! d := star_into (Some pltwraps_all2) pltwraps d in
  star_into (Some mpldefaults_all) mpldefaults d.

(* interactive.py:45-50.  A file is read, compiled and run in namespaces, given by positions:
     name, args = args[0], args[1:] if len(args) > 1 else (globals(),)
     with open(name) as f: code = compile(f.read(), name, 'exec')
     eval("exec(code, *args)")
   own is the namespace of npplus.interactive itself; exec takes at most three arguments.
   Simplification: the file name is a string and the other arguments are dicts. *)
Section Execfile.
Context {Code : Type}.
Variable read : world -> string -> res string.
Variable compile : string -> string -> res Code.
Variable exec : world -> Code -> nat -> option nat -> res unit * world.
Variable own : nat.
Definition execfile (w : world) (args : option (string * list nat)) : res unit * world :=
  match args with
  | None => (Err IndexError, w)
  | Some (name, rest) =>
    let rest := match rest with [] => [own] | _ => rest end in
    match (let! text := read w name in compile text name) with
    | Err e => (Err e, w)
    | Ok code =>
      match rest with
      | [g] => exec w code g None
      | [g; l] => exec w code g (Some l)
      | _ => (Err TypeError, w)
      end
    end
  end.
End Execfile.
