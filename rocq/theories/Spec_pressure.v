(** Thermodynamics of hard spheres, for C174. *)
From Coq Require Import Reals.
Open Scope R_scope.

(** Percus-Yevick equation of state (compressibility route): the osmotic pressure
    of hard spheres at volume fraction phi, in units of k T / sphere volume. *)
Definition pressure (phi : R) : R := phi * (1 + phi + phi ^ 2) / (1 - phi) ^ 3.
