(** Model of the rest of structcol/montecarlo.py: [calc_scat],
    [phase_function], [sample_angles].  No proofs in this file.

    Mie theory is an argument, as in M_reflection.v; lengths are plain numbers
    in one unit. *)
From Verif Require Export Num M_init M_model M_montecarlo M_detector M_structure M_refractive_index M_reflection.
From Coquelicot Require Import Complex.
Open Scope R_scope.

(* ------------------------------------------------------------------ *)
(** * calc_scat *)

(** structcol/montecarlo.py:978-983, one of the two terms of the number
    density: 1/(r^3 + r2^3*c'/c).  With c = 0 the quotient is infinite (the
    term is then 0), or NaN when its numerator is 0 too; division by zero
    warnings are switched off there. *)
Definition density_term (r r2 c c' : R) : num :=
  if Reqb c 0 then (if Reqb (r2 ^ 3 * c') 0 then None else Some 0)
  else ndiv 1 (r ^ 3 + r2 ^ 3 * c' / c).

(** structcol/montecarlo.py:976-984: [concentration] defaults to (1, 0). *)
Definition default_conc (concentration : option (R * R)) : R * R :=
  match concentration with Some c => c | None => (1, 0) end.
Definition scat_rho (volume_fraction : R) (radius radius2 : list R) (concentration : option (R * R)) : num :=
  let '(c0, c1) := default_conc concentration in
  let r := Rmax_list radius in
  let r2 := Rmax_list radius2 in
  nmap (fun t => 3 * volume_fraction / (4 * PI) * t)
    (nmap2 Rplus (density_term r r2 c0 c1) (density_term r2 r c1 c0)).

(** Arguments of [calc_scat] (structcol/montecarlo.py:833-849) for
    fields=False. *)
Record scat_in := mk_sin {
  s_radius : list R; s_np : list C; s_nsample : C; s_vf : R; s_wavelen : R;
  s_radius2 : option (list R); s_conc : option (R * R); s_pdi : option (R * R); s_poly : bool;
  s_fine : R; s_min : R; s_num : nat; s_structure : structure_type; s_form : option string;
  s_sdata : option (list (R * R)); s_nmatrix : option C; s_emstruct : bool; s_emform : bool }.

(** structcol/montecarlo.py:952-965: the index around the particles and, if
    different, the size parameters for the structure factor.  A missing
    n_matrix fails at the next line (2*pi*None: TypeError). *)
Definition scat_medium (I : scat_in) : result (C * option (list R)) :=
  let x_eff := map (fun r => Cmod (Cmult (s_nsample I) (RtoC (size_parameter (s_wavelen I) 1 r)))) (s_radius I) in
  match s_emform I, s_emstruct I, s_nmatrix I with
  | true, _, _ => Ok (s_nsample I, None)
  | false, true, Some n => Ok (n, Some x_eff)
  | false, false, Some n => Ok (n, None)
  | false, _, None => Err TypeError
  end.

(** The other radius (structcol/montecarlo.py:967-970). *)
Definition other_radius (I : scat_in) : list R :=
  match s_radius2 I with Some r => r | None => s_radius I end.

(** structcol/montecarlo.py:1001-1002 and 1157-1171: what is handed to the
    polydisperse functions (kept for two single-layer kinds, the only ones
    they accept). *)
Definition scat_poly (I : scat_in) (n : R) : poly_args :=
  let '(c0, c1) := default_conc (s_conc I) in
  match s_pdi I with
  | Some (p0, p1) =>
      Some ([mkSp c0 (2 * nth 0 (s_radius I) 0) p0; mkSp c1 (2 * nth 0 (other_radius I) 0) p1],
            s_wavelen I, n)
  | None => None end.

(** structcol/montecarlo.py:1075-1240 [phase_function] in the scattering plane
    for a real wavenumber [k]: phase function and total cross section.  NaN in
    a cross section makes both NaN. *)
Definition phase_function (dcs : R -> result (num * num)) (k : R) (angles : list R)
  : result (list num * num) :=
  bind (all_angles dcs angles) (fun l =>
  match get_all (map fst l), get_all (map snd l) with
  | Some par, Some perp =>
      let tot cs := integrate_cross_section cs (map (fun _ => 1 / Rabs k ^ 2) angles) angles (2 * PI) in
      Ok (phase_function_p par perp, Some ((tot par + tot perp) / 2))
  | _, _ => Ok (map (fun _ => None) angles, None)
  end).

(** One call of [phase_function] by [calc_scat] with surroundings [n] (complex).
    [special] stands for the calculation with a complex index (lines
    1192-1219, pymie's integration in an absorbing medium). *)
Definition scat_phase (factorial : R -> R) (mie_ang : list C -> list R -> R -> R * R)
  (special : C -> structure_type -> result (list num * num)) (I : scat_in)
  (form : option string) (st : structure_type) (n : C) (x_eff : option (list R))
  : result (list num * num) :=
  if negb (Reqb (snd n) 0) then special n st
  else
    let m := map (fun np => Cdiv np n) (s_np I) in
    let x := map (size_parameter (s_wavelen I) (fst n)) (s_radius I) in
    phase_function
      (differential_cross_section factorial (mie_ang m) (length m) x x_eff (s_vf I) st form
         (scat_poly I (fst n)) (s_sdata I))
      (2 * PI * fst n / s_wavelen I) (linspace (s_min I) PI (s_num I)).

(** What [calc_scat] returns: phase function, scattering coefficient (and the
    one for the rough surface), absorption coefficient. *)
Record scat_out := mk_sout { o_p : list num; o_mu : num; o_mie : option num; o_muabs : R }.

(** structcol/montecarlo.py:987-998: polydispersity overrides the form and
    structure factors.  (The tests for radius2 and concentration come after
    both have been given default values, so only pdi can be missing.) *)
Definition scat_types (I : scat_in) : result (option string * structure_type) :=
  if s_poly I then
    match s_pdi I with
    | None => Err ValueError
    | Some _ =>
        if Nat.ltb 1 (length (s_np I)) then Err ValueError
        else Ok (Some "polydisperse"%string,
                 match s_structure I with
                 | S_name s => if String.eqb s "data" then S_name s else S_name "polydisperse"
                 | _ => S_name "polydisperse" end) end
  else Ok (s_form I, s_structure I).

(** structcol/montecarlo.py:833-1072 [calc_scat], fields=False. *)
Definition calc_scat (factorial : R -> R) (mie_ang : list C -> list R -> R -> R * R)
  (special : C -> structure_type -> result (list num * num)) (I : scat_in) : result scat_out :=
  bind (scat_medium I) (fun nm =>
  let '(n, x_eff) := nm in
  let rho := scat_rho (s_vf I) (s_radius I) (other_radius I) (s_conc I) in
  bind (scat_types I) (fun ty =>
  let '(form, st) := ty in
  let mu_abs := 4 * PI * snd n / s_wavelen I in
  bind (scat_phase factorial mie_ang special I form st n x_eff) (fun pc =>
  let mu := nmap2 Rmult rho (snd pc) in
  if Rltb 0 (s_fine I) then
    match s_nmatrix I with
    | None => Err ValueError
    | Some n' =>
        bind (scat_phase factorial mie_ang special I form S_none n' None) (fun pc' =>
        Ok (mk_sout (fst pc) mu (Some (nmap2 Rmult rho (snd pc'))) mu_abs)) end
  else Ok (mk_sout (fst pc) mu None mu_abs)))).

(* ------------------------------------------------------------------ *)
(** * sample_angles *)

(** numpy's [rng.choice(n, p=q)] from a uniform draw [u] in [0,1): ValueError
    for NaN, negative or un-normalised probabilities (tolerance sqrt(eps)),
    otherwise searchsorted(cdf/cdf[-1], u, side='right'). *)
Definition choice (p : list num) (u : R) : result nat :=
  match get_all p with
  | None => Err ValueError
  | Some q =>
      if existsb (fun x => Rltb x 0) q then Err ValueError
      else if Rltb (/ 2 ^ 26) (Rabs (Rsum q - 1)) then Err ValueError
      else
        let cdf := cumsum q in
        Ok (length (filter (fun c => Rleb (c / last cdf 0) u) cdf))
  end.

(** structcol/montecarlo.py:1291-1310, one event of one trajectory, phase
    function of theta only: theta and phi from the two draws. *)
Definition sample_angle_1d (p : list R) (min_angle u_phi u_theta : R) : result (R * R) :=
  bind (choice (sample_angles_prob p min_angle) u_theta) (fun i =>
  Ok (nth i (linspace min_angle PI (length p)) 0, 2 * PI * u_phi)).

(** structcol/montecarlo.py:1312-1340, one event of one trajectory, phase
    function of theta (rows) and phi (columns). *)
Definition column (p : list (list R)) (j : nat) : list R := map (fun row => nth j row 0) p.
Definition sample_angle_2d (p : list (list R)) (min_angle u_phi u_theta : R) : result (R * R) :=
  let nphi := length (hd [] p) in
  let p_phi := map (fun j => Rsum (column p j)) (seq 0 nphi) in
  let thetas := linspace min_angle PI (length p) in
  bind (choice (normalise p_phi) u_phi) (fun j =>
  bind (choice (normalise (map2 (fun x t => x * sin t) (column p j) thetas)) u_theta) (fun i =>
  Ok (nth i thetas 0, nth j (linspace min_angle (2 * PI) nphi) 0))).

(** structcol/montecarlo.py:1243-1346 [sample_angles]: nevents-1 rows of ntraj
    angles, every one from its own draws; the first error is raised. *)
Fixpoint rows_of {A} (f : nat -> nat -> result A) (ntraj e : nat) (i : nat) : result (list A) :=
  match i with
  | O => Ok []
  | S i' => bind (f e (ntraj - i)%nat) (fun a => bind (rows_of f ntraj e i') (fun l => Ok (a :: l)))
  end.
Fixpoint events_of {A} (f : nat -> nat -> result A) (nev ntraj : nat) (k : nat) : result (list (list A)) :=
  match k with
  | O => Ok []
  | S k' => bind (rows_of f ntraj (nev - k)%nat ntraj) (fun r =>
            bind (events_of f nev ntraj k') (fun l => Ok (r :: l)))
  end.
Definition sample_angles_1d (nevents ntraj : nat) (p : list R) (min_angle : R) (u_phi u_theta : nat -> nat -> R)
  : result (list (list (R * R))) :=
  events_of (fun e i => sample_angle_1d p min_angle (u_phi e i) (u_theta e i)) (nevents - 1) ntraj (nevents - 1).
Definition sample_angles_2d (nevents ntraj : nat) (p : list (list R)) (min_angle : R) (u_phi u_theta : nat -> nat -> R)
  : result (list (list (R * R))) :=
  events_of (fun e i => sample_angle_2d p min_angle (u_phi e i) (u_theta e i)) (nevents - 1) ntraj (nevents - 1).
