(** Rays through parallel layers, for C173. *)
From Coq Require Import Reals List.
From Verif Require Import Spec.
Import ListNotations.
Open Scope R_scope.

(** A ray at angle t to the normal in a medium of index n that goes on through
    media of indices ns, all surfaces parallel, and comes out at angle u: at each
    surface it obeys Snell's law and goes forward. *)
Inductive through_layers : R -> R -> list R -> R -> Prop :=
| no_layer t n : through_layers t n [] t
| one_layer t n m ns v u : snell n t m v -> - (PI / 2) <= v <= PI / 2 -> through_layers v m ns u -> through_layers t n (m :: ns) u.
