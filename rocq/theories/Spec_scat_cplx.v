(** Vocabulary for calc_scat in absorbing media and with fields=True. *)
From Verif Require Import Num Spec Spec_scatter Spec_optics Spec_reflection Spec_scat Spec_absorbing
  M_structure M_refractive_index M_reflection M_scat.
From Coquelicot Require Import Complex.
Open Scope R_scope.

(** The complex index of the particles' surroundings chosen by the switches. *)
Definition surroundings_c (I : scat_in) (n : C) : Prop :=
  if s_emform I then s_nsample I = n
  else s_nmatrix I = Some n /\ (s_emstruct I = true -> s_nsample I <> RtoC 0).

(** Reasonable arguments of calc_scat in a medium of complex index [n]. *)
Definition scat_ok_c (factorial : R -> R) (I : scat_in) (n : C) : Prop :=
  s_radius I <> [] /\ Forall (fun r => 0 < r) (s_radius I)
  /\ (forall r2, s_radius2 I = Some r2 -> r2 <> [] /\ Forall (fun r => 0 < r) r2)
  /\ (forall c0 c1, s_conc I = Some (c0, c1) -> 0 <= c0 /\ 0 <= c1 /\ c0 + c1 = 1)
  /\ n <> RtoC 0 /\ 0 < s_wavelen I /\ 0 < s_vf I /\ 0 < s_min I <= PI
  /\ (s_poly I = true -> s_pdi I <> None /\ length (s_np I) = 1%nat)
  /\ form_ok factorial (length (s_np I)) (form_used I) (scat_poly I (fst n))
  /\ structure_ok (length (s_np I)) (s_vf I) (structure_used I) (scat_poly I (fst n)) (s_sdata I).

(** The radius of the second kind of particles (the first's if there is none),
    and the largest radius of all. *)
Definition second_radius (I : scat_in) : list R :=
  match s_radius2 I with Some r => r | None => s_radius I end.
Definition is_largest (r : R) (l : list R) : Prop := In r l /\ forall a, In a l -> a <= r.

(** Average of [f] over the surfaces at which intensities are integrated:
    polydisperse particles at their two mean radii, weighted by concentration
    (1 and 0 if none is given), all others at the largest radius. *)
Definition surface_average (I : scat_in) (f : R -> R) (v : R) : Prop :=
  let '(c0, c1) := match s_conc I with Some c => c | None => (1, 0) end in
  if match form_used I with Some ft => String.eqb ft "polydisperse" | None => false end
  then v = c0 * f (nth 0 (s_radius I) 0) + c1 * f (nth 0 (second_radius I) 0)
  else exists r, is_largest r (s_radius I ++ second_radius I) /\ v = f r.

(** A table of numbers as a list of rows of grid values. *)
Definition tabulate (f : R -> R -> R) (thetas phis : list R) : list (list R) :=
  map (fun t => map (f t) phis) thetas.
Definition phi_grid (I : scat_in) (nphi : nat) : list R := linspace (s_min I) (2 * PI) nphi.

(** The sum of all entries of a table. *)
Definition table_total (f : R -> R -> R) (thetas phis : list R) : R :=
  total (map (fun t => total (map (f t) phis)) thetas).

(** [s] is the structure factor of the kind asked for, at q d = 4 x sin(theta/2)
    with [x] the largest size parameter: of the index for the structure factor
    if that is a separate one, else of the modulus of [n]. *)
Definition structure_value (I : scat_in) (n : C) (x_eff : option (list R)) (theta s : R) : Prop :=
  exists x, is_largest x (match x_eff with Some xe => xe | None =>
                     map (fun r => 2 * PI * Cmod n * r / s_wavelen I) (s_radius I) end)
    /\ structure_part (length (s_np I)) (s_vf I) (4 * x * sin (theta / 2)) (structure_used I)
         (scat_poly I (fst n)) (s_sdata I) = Ok (Some s).
