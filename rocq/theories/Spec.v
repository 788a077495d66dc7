(** Vocabulary of the property statements, written without looking at the
    model: vectors, lengths, Snell's law, list sums.  Nothing here refers to
    the code. *)
From Coq Require Import Reals List.
Import ListNotations.
Open Scope R_scope.

(** Three-dimensional vectors. *)
Definition vec := (R * R * R)%type.
Definition vx (v : vec) : R := let '(x, _, _) := v in x.
Definition vy (v : vec) : R := let '(_, y, _) := v in y.
Definition vz (v : vec) : R := let '(_, _, z) := v in z.
Definition dot (a b : vec) : R := vx a * vx b + vy a * vy b + vz a * vz b.
Definition vadd (a b : vec) : vec := (vx a + vx b, vy a + vy b, vz a + vz b).
Definition vsub (a b : vec) : vec := (vx a - vx b, vy a - vy b, vz a - vz b).
Definition vscale (c : R) (a : vec) : vec := (c * vx a, c * vy a, c * vz a).
Definition cross (a b : vec) : vec :=
  (vy a * vz b - vz a * vy b, vz a * vx b - vx a * vz b, vx a * vy b - vy a * vx b).
Definition vlen (a : vec) : R := sqrt (dot a a).
Definition unit (a : vec) : Prop := dot a a = 1.
Definition vzero : vec := (0, 0, 0).
Definition ez : vec := (0, 0, 1).

(** Snell's law between an angle [t1] in a medium of index [n1] and an angle
    [t2] in a medium of index [n2]. *)
Definition snell (n1 t1 n2 t2 : R) : Prop := n1 * sin t1 = n2 * sin t2.

(** Textbook Fresnel intensity reflectances, written with both angles. *)
Definition textbook_Rp (n1 t1 n2 t2 : R) : R :=
  ((n1 * cos t2 - n2 * cos t1) / (n1 * cos t2 + n2 * cos t1)) ^ 2.
Definition textbook_Rs (n1 t1 n2 t2 : R) : R :=
  ((n1 * cos t1 - n2 * cos t2) / (n1 * cos t1 + n2 * cos t2)) ^ 2.

(** Plain sum of a list. *)
Fixpoint total (l : list R) : R :=
  match l with [] => 0 | x :: t => x + total t end.

(** [x] is a fraction. *)
Definition fraction (x : R) : Prop := 0 <= x <= 1.

(** Sum of a list of vectors. *)
Fixpoint vtotal (l : list vec) : vec :=
  match l with [] => vzero | v :: t => vadd v (vtotal t) end.

(** Every draw of a stream of uniform random numbers is in [0, 1). *)
Definition in01 (u : nat -> R) : Prop := forall i, 0 <= u i < 1.

(** [o] is what normalising [v] must give: the unit vector along [v], or, for
    the zero vector, NaN / zero as requested. *)
Definition normalize_spec (return_nan : bool) (v : vec) (o : option vec) : Prop :=
  (v <> vzero -> exists u, o = Some u /\ unit u /\ v = vscale (vlen v) u) /\
  (v = vzero -> o = if return_nan then None else Some vzero).

(** A launch point on a sphere of the given radius touching z = 0 from above:
    on the surface, on the half facing the light, inside the spot. *)
Definition sphere_start_ok (spot radius : R) (p : vec) : Prop :=
  vx p ^ 2 + vy p ^ 2 + (vz p - radius) ^ 2 = radius ^ 2
  /\ 0 <= vz p <= radius
  /\ vx p ^ 2 + vy p ^ 2 <= (spot / 2) ^ 2.

(** Normal of a facet tilted by [theta_a] in the x-z plane; mirror image of
    [k] in the plane with unit normal [n]. *)
Definition facet_normal (theta_a : R) : vec := (sin theta_a, 0, cos theta_a).
Definition mirror (n k : vec) : vec := vsub k (vscale (2 * dot k n) n).

(** [i] is the first position (from 0) at which the list of booleans is true. *)
Definition first_true (b : list bool) (i : nat) : Prop :=
  nth i b false = true /\ forall j, (j < i)%nat -> nth j b false = false.
Definition never_true (b : list bool) : Prop := forall j, nth j b false = false.

(** [z] lies in slab number [m] of a stack of slabs of thickness [d] that
    starts at [z0]; the film is slab 0, the others are its mirror images. *)
Definition in_slab (z0 d z : R) (m : Z) : Prop :=
  z0 + IZR m * d <= z < z0 + (IZR m + 1) * d.

(** A ray of z-component [kz] inside a medium of index [n1] can refract out
    into index [n2]: n1 sin(angle) < n2. *)
Definition steep (n1 n2 kz : R) : Prop := n1 * sqrt (1 - kz ^ 2) < n2.
