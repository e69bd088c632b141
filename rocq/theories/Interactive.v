(* /repo/npplus/interactive.py: reloadx.

   Modules are objects: a module is a position in [mods], its namespace the dict
   vars(module).  Running the code of a module may do anything, so reload and
   import_module are arbitrary functions of the world, given as parameters.

   Simplification: a module with its own __getattr__ (PEP 562) is modelled only as far
   as hasattr goes, by the field [dyn]; getattr of a name found in vars(module) does not
   use it. *)
From Coq Require Import String List Arith Bool.
From Verif Require Import PyBase ItemAttr.
Import ListNotations.
Local Open Scope string_scope.

Inductive mval := MMod (l : nat) | MObj (o : nat).
Record world := World {
  sysmods : dict nat;              (* sys.modules *)
  mods : nat -> dict mval;         (* vars of the module objects *)
  dyn : nat -> string -> bool      (* names answered by the module's own __getattr__ *)
}.
Definition set_mods (w : world) (l : nat) (d : dict mval) : world :=
  World (sysmods w) (fun k => if (k =? l)%nat then d else mods w k) (dyn w).

(* the argument: a module, a name, or something else, which may be hashable or not *)
Inductive margs := AMod (l : nat) | AName (s : string) | AOther (hashable : bool).

(* str.endswith('__') *)
Definition ends_dunder (s : string) : bool :=
  (2 <=? String.length s)%nat && (substring (String.length s - 2) 2 s =? "__").
(* nm.startswith('__') and nm.endswith('__') *)
Definition is_dunder (s : string) : bool := dunder s && ends_dunder s.

Section Reloadx.
Variable reload : world -> nat -> res unit * world.
Variable import_module : world -> string -> res nat * world.
Variable main : nat.              (* the __main__ module *)

(* interactive.py:92-97
     if isinstance(module, sys.__class__):
         reload(module)
     else:
         if module in sys.modules:
             del sys.modules[module]
         module = import_module(module) *)
Definition rx_module (w : world) (m : margs) : res nat * world :=
  match m with
  | AMod l => let (r, w1) := reload w l in (bind r (fun _ => Ok l), w1)
  | AName s =>
    let w0 := match ddel (sysmods w) s with Ok d => World d (mods w) (dyn w) | Err _ => w end in
    import_module w0 s
  | AOther true => (Err AttributeError, w)
  | AOther false => (Err TypeError, w)
  end.
(* interactive.py:99-101
     for nm in vars(module):
         if not (nm.startswith('__') and nm.endswith('__')):
             setattr(__main__, nm, getattr(module, nm)) *)
Definition rx_publish (w : world) (l : nat) : world :=
  fold_left (fun w nm =>
    if is_dunder nm then w
    else match dget (mods w l) nm with
         | Ok v => set_mods w main (dset (mods w main) nm v)
         | Err _ => w
         end) (map fst (mods w l)) w.
(* interactive.py:102-103
     if not hasattr(module, 'my'):
         module.__dict__['my'] = __main__ *)
Definition rx_my (w : world) (l : nat) : world :=
  match dget (mods w l) "my" with
  | Ok _ => w
  | Err _ => if dyn w l "my" then w else set_mods w l (dset (mods w l) "my" (MMod main))
  end.
(* interactive.py:53-103 *)
Definition reloadx (w : world) (m : margs) : res unit * world :=
  match rx_module w m with
  | (Ok l, w1) => (Ok tt, rx_my (rx_publish w1 l) l)
  | (Err e, w1) => (Err e, w1)
  end.
End Reloadx.

(* what `from module import *` binds: the names of __all__, or else the names without a
   leading underscore *)
Definition star_names (alls : option (list string)) (d : dict mval) : list string :=
  match alls with
  | Some l => l
  | None => filter (fun nm => negb (prefix "_" nm)) (map fst d)
  end.
