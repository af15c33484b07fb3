(** * Shadow_hist: histories of operations on mesh variables (C03).

    A store maps variable numbers to live meshes; [None] is a variable that does
    not exist or has been moved from.  [mstep] is [None] when the C++ statement
    uses a dead variable or is undefined behaviour. *)
From Verif Require Import Base Dbl Shadow.

Definition store := nat -> option mesh.
Definition upd (s : store) (i : nat) (m : option mesh) : store :=
  fun j => if (j =? i)%nat then m else s j.

(** Statements on mesh variables; each runs the function cited. *)
Inductive mop :=
| ODefault (i : nat)                                           (* Mesh i;                 mesh.cpp:19-20 *)
| OMake (i : nat) (n : str) (P : list point) (F : list face)   (* Mesh i(n, P, F);        mesh.cpp:97-101 *)
| OCopy (i j : nat)                                            (* Mesh i(j);              mesh.cpp:21-22 *)
| OMove (i j : nat)                                            (* Mesh i(std::move(j));   mesh.cpp:23-24 *)
| OAssign (i j : nat)                                          (* i = j;                  mesh.cpp:121-128 *)
| OMoveAssign (i j : nat)                                      (* i = std::move(j);       mesh.cpp:129-136 *)
| OSwap (i j : nat)                                            (* swap(i, j);             mesh.cpp:112-119 *)
| OAddAssign (i j : nat)                                       (* i += j;                 mesh.cpp:253-279 *)
| OAdd (i j k : nat)                                           (* Mesh i(j + k);          mesh.cpp:361-364 *)
| OSetName (i : nat) (n : str).                                (* i.set_name(n);          mesh.cpp:185-189 *)

(** One statement.  A moved-from variable is dead afterwards (see [mesh_move] for
    what it actually contains). *)
Definition mstep (s : store) (o : mop) : option store :=
  match o with
  | ODefault i => Some (upd s i (Some mesh_empty))
  | OMake i n P F => Some (upd s i (Some (mesh_make n P F)))
  | OCopy i j => match s j with
                 | Some m => Some (upd s i (Some (mesh_copy m)))
                 | None => None end
  | OMove i j => match s j with
                 | Some m => if (i =? j)%nat then None
                             else Some (upd (upd s j None) i (Some (fst (mesh_move m))))
                 | None => None end
  | OAssign i j => match s i, s j with
                   | Some a, Some b => Some (upd s i (Some (mesh_assign a b)))
                   | _, _ => None end
  | OMoveAssign i j => match s i, s j with
                   | Some a, Some b => if (i =? j)%nat then None
                       else Some (upd (upd s j None) i (Some (fst (mesh_move_assign a b))))
                   | _, _ => None end
  | OSwap i j => match s i, s j with
                 | Some a, Some b =>
                   let '(a', b') := mesh_swap a b in Some (upd (upd s j (Some b')) i (Some a'))
                 | _, _ => None end
  | OAddAssign i j => match s i, s j with
                 | Some a, Some b =>
                   if (i =? j)%nat then
                     match mesh_add_assign_self a with
                     | Ok a' => Some (upd s i (Some a')) | _ => None end
                   else Some (upd s i (Some (mesh_add_assign a b)))
                 | _, _ => None end
  | OAdd i j k => match s j, s k with
                 | Some a, Some b => Some (upd s i (Some (mesh_add a b)))
                 | _, _ => None end
  | OSetName i n => match s i with
                 | Some a => Some (upd s i (Some (fst (mesh_set_name a n))))
                 | None => None end
  end.
Fixpoint mrun (s : store) (os : list mop) : option store :=
  match os with
  | [] => Some s
  | o :: os => match mstep s o with Some s' => mrun s' os | None => None end
  end.
Definition store_init : store := fun _ => None.

(** The statement performs no copy assignment of a mesh, directly or through a sum
    whose left operand has no points. *)
Definition no_copy_assign (s : store) (o : mop) : Prop :=
  match o with
  | OAssign _ _ => False
  | OAddAssign i _ => match s i with Some a => m_points a <> [] | None => True end
  | OAdd _ j _ => match s j with Some a => m_points a <> [] | None => True end
  | _ => True
  end.
Fixpoint no_copy_assign_run (s : store) (os : list mop) : Prop :=
  match os with
  | [] => True
  | o :: os => no_copy_assign s o /\
      match mstep s o with Some s' => no_copy_assign_run s' os | None => True end
  end.
