(** * Specification vocabulary for running a program again: C103. *)
From Coq Require Import String.
From Verif Require Import Base Handlers Spec_io Cli Spec_cli.
Close Scope string_scope.
Open Scope nat_scope.

(** the scene's own files are the same in both file systems: everything at or below [d], where
    the scene lies, and, for the 3DS formats, the XML files *)
Definition left_alone (fmt : str) (d : path) (f g : fs) : Prop :=
  (forall q, g (d ++ q) = f (d ++ q)) /\
  (fmt = lit "3DS" \/ fmt = lit "3DS XML" -> forall q n, g (q ++ [n ++ lit ".XML"]) = f (q ++ [n ++ lit ".XML"])).
(** an unchanged directory is listed in the same order *)
Definition lists_alike (listing : fs -> path -> list str) : Prop := forall f g d, (forall q, g (d ++ q) = f (d ++ q)) -> listing g d = listing f d.
(** neither path lies at or below the other *)
Definition apart (p q : path) : Prop := forall x y, p ++ x <> q ++ y.
(** the same content *)
Definition same_disk (f g : fs) : Prop := forall p, g p = f p.
