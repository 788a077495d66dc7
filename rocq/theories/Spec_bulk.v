(** Vocabulary of the statements about phase_func_sphere.py. *)
From Verif Require Export Spec M_phase_func_sphere.
Open Scope R_scope.

(** The sum over trajectories 0 .. n-1. *)
Definition over (n : nat) (g : nat -> R) : R := total (map g (seq 0 n)).

(** Number of spheres of radius [r] per unit volume at volume fraction [phi]. *)
Definition spheres_per_volume (phi r : R) : R := phi / (4 / 3 * PI * r ^ 3).

(** Trajectory [i] leaves the sphere after being scattered at least once: it is
    reflected, or transmitted at a later event than the first ([ri], [ti]: event
    numbers, 0 for none). *)
Definition scattered_out (ri ti : nat -> nat) (i : nat) : Prop := ri i <> 0%nat \/ (2 <= ti i)%nat.

(** One outcome per trajectory. *)
Definition one_exit (n : nat) (ri ti : nat -> nat) : Prop :=
  forall i, (i < n)%nat -> ri i = 0%nat \/ ti i = 0%nat.

(** The weight trajectory [i] leaves with. *)
Definition exit_weight (rw tw : nat -> R) (ri ti : nat -> nat) (i : nat) : R :=
  if Nat.eqb (ri i) 0 then tw i else rw i.

(** calc_pdf on [n] trajectories given by functions. *)
Definition pdf_call (bw : list R -> list R -> R) (n : nat) (z : nat -> R) (radius : R)
  (rw tw : nat -> R) (ri ti : nat -> nat) (kz : option (nat -> list R)) :=
  calc_pdf bw (map z (seq 0 n)) radius (map rw (seq 0 n)) (map tw (seq 0 n))
    (map ri (seq 0 n)) (map ti (seq 0 n)) (option_map (fun f => map f (seq 0 n)) kz).

(** Sorted in non-decreasing order. *)
Definition ascending (l : list R) : Prop :=
  forall i j, (i <= j)%nat -> (j < length l)%nat -> nth i l 0 <= nth j l 0.

(** The type assigned to parameter [v]: the last one in the list. *)
Definition last_type (params : list R) (v : R) (j : nat) : Prop :=
  (j < length params)%nat /\ nth j params 0 = v
  /\ forall k, (j < k)%nat -> (k < length params)%nat -> nth k params 0 <> v.

(** The Schulz density of the particle diameter (its Gaussian limit above
    t = 100) at [d]. *)
Definition size_density (factorial : R -> R) (mean t d : R) : R :=
  if Rleb t 100 then schulz factorial mean t d else narrow mean t d.
(** [d] is a point of [grid] whose density is nearest to [level]. *)
Definition nearest_to (density : R -> R) (level : R) (grid : list R) (d : R) : Prop :=
  In d grid /\ forall g, In g grid -> Rabs (density d - level) <= Rabs (density g - level).
(** [d] is a point of [grid] of largest density. *)
Definition most_likely (density : R -> R) (grid : list R) (d : R) : Prop :=
  In d grid /\ forall g, In g grid -> density g <= density d.
