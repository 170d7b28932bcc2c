(** Inheritance. *)
From Coq Require Import List.
From Verif.Model Require Import Warnings.
(** [c] is [b] or inherits from it, directly or not. *)
Inductive inherits : cls -> cls -> Prop :=
| inherits_refl c : inherits c c
| inherits_base c p b : In p (bases c) -> inherits p b -> inherits c b.
