(** A layer between two media as a stack of two surfaces, for C170. *)
From Coq Require Import Reals.
From Verif Require Import Spec.
Open Scope R_scope.

(** Fresnel reflectance of unpolarised light that meets the surface from index
    n1, at angle t1, to index n2, where its angle is t2. *)
Definition surface_R (n1 t1 n2 t2 : R) : R := (textbook_Rp n1 t1 n2 t2 + textbook_Rs n1 t1 n2 t2) / 2.

(** Light of intensity 1 falls on the layer.  [front]: reflectance of the first
    surface from outside; [near], [far]: reflectances of the first and the second
    surface from inside.  [bouncing k]: what travels towards the second surface
    after k round trips; [passed k], [returned k]: what has left through the
    second and through the first surface by then. *)
Section Layer.
Variables front near far : R.
Fixpoint bouncing (k : nat) : R :=
  match k with O => 1 - front | S j => bouncing j * far * near end.
Fixpoint passed (k : nat) : R :=
  match k with O => 0 | S j => passed j + bouncing j * (1 - far) end.
Fixpoint returned (k : nat) : R :=
  match k with O => front | S j => returned j + bouncing j * far * (1 - near) end.
End Layer.

(** A ray: its angles in three media, one after the other. *)
Definition ray (a ta g tg b tb : R) : Prop :=
  0 < a /\ 0 < g /\ 0 < b /\ 0 <= ta < PI / 2 /\ 0 <= tg < PI / 2 /\ 0 <= tb < PI / 2 /\ snell a ta g tg /\ snell g tg b tb.
