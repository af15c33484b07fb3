(** * Specification vocabulary for values and for the lifetime of 3DS handlers (C83, C84). *)
From Verif Require Import Base Values.
Open Scope nat_scope.

(** what the author of a program expects of a variable: the value it holds, or nothing once it
    has been moved from *)
Inductive slot (T : Type) := Holds (v : T) | Unspecified.
Arguments Holds {T}. Arguments Unspecified {T}.
Definition after_change {T} (g : T -> T) (s : slot T) : slot T := match s with Holds v => Holds (g v) | Unspecified => Unspecified end.
(** the variables named by an operation, those that must exist and those that must not *)
Definition needs {T} (o : vop T) : list nat :=
  match o with VMake _ _ => [] | VChange x _ => [x] | VCopy _ y => [y] | VMove _ y => [y] | VAssign x y => [x; y] | VMoveAssign x y => [x; y] | VSwap x y => [x; y] | VDestroy x => [x] end.
Definition defines {T} (o : vop T) : list nat := match o with VMake x _ => [x] | VCopy x _ => [x] | VMove x _ => [x] | _ => [] end.
(** what each variable is expected to hold after an operation, [r] before it *)
Definition expected_after {T} (r : nat -> option (slot T)) (o : vop T) (z : nat) : option (slot T) :=
  match o with
  | VMake x v => if z =? x then Some (Holds v) else r z
  | VChange x g => if z =? x then option_map (after_change g) (r x) else r z
  | VCopy x y => if z =? x then r y else r z
  | VMove x y => if z =? x then r y else if z =? y then Some Unspecified else r z
  | VAssign x y => if z =? x then r y else r z
  | VMoveAssign x y => if z =? y then Some Unspecified else if z =? x then r y else r z
  | VSwap x y => if z =? x then r y else if z =? y then r x else r z
  | VDestroy x => if z =? x then None else r z
  end.
(** the histories that are programs, with what they are expected to lead to *)
Inductive leads {T} : (nat -> option (slot T)) -> list (vop T) -> (nat -> option (slot T)) -> Prop :=
| Leads_nil r : leads r [] r
| Leads_cons r o os r' : Forall (fun x => r x <> None) (needs o) -> Forall (fun x => r x = None) (defines o) -> leads (expected_after r o) os r' -> leads r (o :: os) r'.
Definition nothing {A} : nat -> option A := fun _ => None.
(** the store of a running program is the expected one *)
Definition as_expected {T} (r : nat -> option (slot T)) (s : nat -> option T) : Prop :=
  forall x, match r x with None => s x = None | Some (Holds v) => s x = Some v | Some Unspecified => s x <> None end.
(** the class behaves as a value in every program *)
Definition value_semantics {T} (C : special T) : Prop :=
  forall os, (forall r, leads nothing os r -> exists s, vrun C nothing os = Some s /\ as_expected r s) /\
             (forall s, vrun C nothing os = Some s -> exists r, leads nothing os r).
(** as above where, in addition, a moved-from variable keeps its value *)
Definition moves_are_copies {T} (C : special T) : Prop :=
  forall s x y v, s y = Some v -> (forall s', s x = None -> vstep C s (VMove x y) = Some s' -> s' x = Some v /\ s' y = Some v) /\
                                 (forall s', vstep C s (VMoveAssign x y) = Some s' -> s' x = Some v /\ s' y = Some v).

(** ** 3DS handlers *)
(** no handler is copied or assigned from another, every file that is opened can be loaded *)
Definition well_kept (o : hop) : Prop :=
  match o with HOpen _ ok => ok = true | HNew _ => True | HCopy _ _ => False | HAssign x y => x = y | HUse _ => True | HDestroy _ => True end.
(** the files allocated by a history, in order *)
Definition files (h : handles) : list nat := seq 0 (hd_next h).
