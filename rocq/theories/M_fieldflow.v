(** Model of a whole calculation with electric fields on a film, the sequence of
    calls of structcol/tests/test_fields.py:60-99 and of
    tutorials/fields_montecarlo_tutorial.ipynb: [calc_scat] and [initialize]
    with fields=True, [sample_angles], [sample_step], scatter, move, absorb,
    [calc_fields], [calc_refl_trans], [calc_refl_co_cross_fields].  No proofs. *)
From Verif Require Import Num Spec M_init M_scat M_montecarlo M_detector M_simulation M_absorbing M_scat_cplx M_workflow M_polarization M_fields.
From Coquelicot Require Import Complex.
Open Scope R_scope.

(** structcol/montecarlo.py:799-822 for all trajectories ([ux], [uy] the two
    arrays of draws); [None] if a field is NaN. *)
Fixpoint all_some {A} (l : list (option A)) : option (list A) :=
  match l with
  | [] => Some []
  | a :: t => match a, all_some t with Some x, Some r => Some (x :: r) | _, _ => None end end.
Definition initial_fields (coherent polarized : bool) (nevents ntraj : nat) (ux uy : nat -> R)
  : result (option (list (list field))) :=
  bind (mapM (fun i => init_fields coherent polarized nevents (ux i) (uy i)) (seq 0 ntraj)) (fun l =>
  Ok (all_some l)).

(** What [calc_fields] is given for trajectory [i]: the angles and steps drawn,
    its directions and its initial fields (structcol/tests/test_fields.py:84-86,
    without tir_refl_bool). *)
Definition field_traj (nevents : nat) (D : draws) (steps : list (list R)) (trs : list traj)
  (E0 : list (list field)) (i : nat) : ftraj :=
  mk_ft (map (d_ang D i) (seq 0 (nevents - 1))) (map (fun row => nth i row 0) steps)
    (t_dir (nth i trs (mk_traj [] [] []))) (nth i E0 []) [].

(** The reflectances per trajectory handed to the field functions: entry 3 of
    the result of [calc_refl_trans] as in the test and the tutorial, or entry 5
    (with the redistributed light) as their documentation says. *)
Definition handed (documented : bool) (o : outcome) : list R :=
  if documented then o_refl_per o else o_refl_pass o.

(** The run; [nk] is the modulus of the sample's index.  Result: trajectories,
    their fields, the result of [calc_refl_trans] and of
    [calc_refl_co_cross_fields] (co, cross, perpendicular, coherent,
    incoherent).  [Ok None]: NaN. *)
Definition fields_run (nevents ntraj : nat) (spot tmin tmax pmin pmax mu_scat : R)
  (amp : R -> R -> amp4) (nk wavelen : R) (coherent polarized documented : bool) (det_theta : R)
  (P : params) (D : draws) (ux uy : nat -> R)
  : result (option (list traj * list (list field) * outcome * (R * R * R * R * R))) :=
  bind (initialize_film nevents ntraj spot None None None tmin tmax pmin pmax
          (p_nmedium P) (p_nsample P) (d_l0 D) (d_l1 D) (d_l2 D) (d_l3 D)) (fun starts =>
  bind (initial_fields coherent polarized nevents ntraj ux uy) (fun E0 =>
  bind (sample_step ntraj mu_scat None 0 (uniform_rows nevents ntraj (d_u D)) (fun _ => 0)) (fun steps =>
  bind (run_trajs nevents (p_muabs P) (d_ang D) steps 0 starts) (fun ts =>
  match ts, E0 with
  | Some trs, Some E0 =>
      bind (calc_fields amp nk wavelen false (map (field_traj nevents D steps trs E0) (seq 0 ntraj))) (fun fs =>
      bind (calc_refl_trans 22 (d_rang D) (d_rstep D) P false 0 trs) (fun oo =>
      match oo with
      | None => Ok None
      | Some o =>
          bind (calc_refl_co_cross_fields (fst fs) (o_refl_i o) (handed documented o) det_theta) (fun c =>
          Ok (Some (trs, fst fs, o, c))) end))
  | _, _ => Ok None end)))).

(** From the sample: [calc_scat] with fields=True and [nphi] azimuths, then
    [sample_angles] on its table (structcol/montecarlo.py:1295-1334).  A NaN
    table makes numpy's choice raise ValueError. *)
Definition fields_workflow factorial mie integ poly_cart (I : scat_in) (nphi : nat) (u_phi u_theta : nat -> nat -> R)
  (nevents ntraj : nat) (spot tmin tmax pmin pmax : R)
  (amp : R -> R -> amp4) (nk wavelen : R) (coherent polarized documented : bool) (det_theta : R)
  (P : params) (D : draws) (ux uy : nat -> R)
  : result (option (list traj * list (list field) * outcome * (R * R * R * R * R))) :=
  bind (calc_scat_fields factorial mie integ poly_cart I nphi) (fun o =>
  match get_rows (f_p o) with
  | None => Err ValueError
  | Some p =>
      bind (sample_angles_2d nevents ntraj p (s_min I) u_phi u_theta) (fun rows =>
      match f_mu o with
      | None => Ok None
      | Some mu => fields_run nevents ntraj spot tmin tmax pmin pmax mu amp nk wavelen coherent polarized documented det_theta
                     (set_muabs P (f_muabs o)) (set_angles D rows) ux uy end) end).
