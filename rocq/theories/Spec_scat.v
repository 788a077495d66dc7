(** Vocabulary for the properties of calc_scat and sample_angles. *)
From Verif Require Import Num Spec Spec_scatter Spec_reflection M_structure M_refractive_index M_reflection M_scat.
From Coquelicot Require Import Complex.
Open Scope R_scope.

(** A draw [u] in [0,1) picks item [i] among [n] items with weights [w]: [0,1)
    is cut into consecutive intervals of lengths proportional to the weights
    and [u] falls into the i-th. *)
Definition picks (w : nat -> R) (n : nat) (u : R) (i : nat) : Prop :=
  (i < n)%nat
  /\ total (map w (seq 0 i)) <= u * total (map w (seq 0 n)) < total (map w (seq 0 (S i))).

(** The share of item [i], i.e. the probability with which it is picked. *)
Definition share (w : nat -> R) (n i : nat) : R := w i / total (map w (seq 0 n)).

(** Grid angle number [i] of [n] between [lo] and [hi]. *)
Definition grid (lo hi : R) (n i : nat) : R := lo + INR i * ((hi - lo) / INR (n - 1)).

(** Entry (i, j) of a table given by rows. *)
Definition entry (p : list (list R)) (i j : nat) : R := nth j (nth i p []) 0.

(** [p] is a table of [m] rows of [n] non-negative numbers. *)
Definition table (p : list (list R)) (m n : nat) : Prop :=
  length p = m /\ Forall (fun row => length row = n /\ Forall (fun x => 0 <= x) row) p.

(** The real index of the particles' surroundings chosen by the switches. *)
Definition surroundings (I : scat_in) (n : R) : Prop :=
  if s_emform I then s_nsample I = RtoC n
  else s_nmatrix I = Some (RtoC n) /\ (s_emstruct I = true -> s_nsample I <> RtoC 0).

(** Form and structure factor used: polydispersity overrides the caller's. *)
Definition form_used (I : scat_in) : option string :=
  if s_poly I then Some "polydisperse"%string else s_form I.
Definition structure_used (I : scat_in) : structure_type :=
  if s_poly I then
    match s_structure I with
    | S_name s => if String.eqb s "data" then S_name s else S_name "polydisperse"
    | _ => S_name "polydisperse" end
  else s_structure I.

(** Reasonable arguments of calc_scat in a non-absorbing medium of index [n]. *)
Definition scat_ok (factorial : R -> R) (I : scat_in) (n : R) : Prop :=
  s_radius I <> [] /\ Forall (fun r => 0 < r) (s_radius I)
  /\ (forall r2, s_radius2 I = Some r2 -> r2 <> [] /\ Forall (fun r => 0 < r) r2)
  /\ (forall c0 c1, s_conc I = Some (c0, c1) -> 0 <= c0 /\ 0 <= c1 /\ c0 + c1 = 1)
  /\ 0 < n /\ 0 < s_wavelen I /\ 0 < s_vf I /\ 0 < s_min I <= PI
  /\ (s_poly I = true -> s_pdi I <> None /\ length (s_np I) = 1%nat)
  /\ form_ok factorial (length (s_np I)) (form_used I) (scat_poly I n)
  /\ structure_ok (length (s_np I)) (s_vf I) (structure_used I) (scat_poly I n) (s_sdata I).

(** The mean volume of a particle. *)
Definition mean_volume (I : scat_in) : R :=
  match s_conc I with
  | None => sphere_volume (Rmax_list (s_radius I))
  | Some (c0, c1) => c0 * sphere_volume (Rmax_list (s_radius I))
                     + c1 * sphere_volume (Rmax_list (match s_radius2 I with Some r => r | None => s_radius I end))
  end.

(** The differential cross sections calc_scat integrates, and its angles. *)
Definition scat_dcs factorial (ang : list C -> list R -> R -> R * R) (I : scat_in) form st (n : R) x_eff :=
  let m := map (fun np => Cdiv np (RtoC n)) (s_np I) in
  differential_cross_section factorial (ang m) (length (s_np I)) (map (size_parameter (s_wavelen I) n) (s_radius I))
    x_eff (s_vf I) st form (scat_poly I n) (s_sdata I).
Definition scat_grid (I : scat_in) : list R := linspace (s_min I) PI (s_num I).


(** The same sample described to [reflection] (single-scattering model) and to
    [calc_scat] (Monte Carlo model): the first works out the effective index
    itself, the second is given it.  If two species are mixed the first is
    present; polydisperse particles have one layer. *)
Definition same_sample (fsolve : (C -> C) -> C) (I : refl_in) (J : scat_in) : Prop :=
  i_radius I = s_radius J /\ i_nparticle I = s_np J /\ i_vf I = s_vf J /\ i_wavelen I = s_wavelen J
  /\ i_radius2 I = s_radius2 J /\ i_conc I = s_conc J /\ i_pdi I = s_pdi J
  /\ i_small I = s_min J /\ i_num I = s_num J
  /\ i_form I = form_used J /\ i_structure I = structure_used J /\ i_sdata I = s_sdata J
  /\ s_nmatrix J = Some (i_nmatrix I) /\ i_emstruct I = s_emstruct J /\ i_emform I = s_emform J
  /\ n_eff fsolve (i_mg I) (i_nparticle I) [i_nmatrix I] (vf_array (i_vf I) (i_radius I)) = Ok (s_nsample J)
  /\ s_fine J <= 0
  /\ (forall c0 c1, s_conc J = Some (c0, c1) -> 0 < c0 /\ 0 <= c1 /\ c0 + c1 = 1)
  /\ (s_pdi J = None \/ (s_conc J <> None /\ length (s_radius J) = 1%nat)).

(** The amplitude of a plane wave after a path [L] in a medium of complex index
    [n], vacuum wavelength [w]: exp(2 pi i n L / w). *)
Definition wave (n : C) (w L : R) : C :=
  let d := exp (- (2 * PI * snd n * L / w)) in
  let ph := 2 * PI * fst n * L / w in (d * cos ph, d * sin ph).
