(** C103: whole Monte Carlo runs (initialize, sample_angles, sample_step,
    absorb, scatter, move, calc_refl_trans).  Proofs in L_simulation.v. *)
From Coq Require Import Lra Lia.
From Verif Require Import Num Spec M_init M_montecarlo M_detector M_simulation Spec_detector L_simulation.
Open Scope R_scope.

(** C103, films.  Whatever the random draws, the launch cone, the numbers of
    events and trajectories, and the coverslips, roughness, detection angle or
    goniometer settings in [P], a run on a film whose sample index is at least
    the medium's does not raise; and if it gives numbers they are fractions
    with sum at most 1, exactly 1 for the plain call without absorption that
    detects the full hemisphere. *)
Theorem C103_film_run : forall nevents ntraj spot tmin tmax pmin pmax mu_scat P D,
  (0 < nevents)%nat -> (0 < ntraj)%nat -> 0 < spot -> 0 < mu_scat -> 0 <= p_muabs P ->
  in01 (d_l0 D) -> in01 (d_l1 D) -> (forall n i, 0 <= d_u D n i < 1) ->
  valid_params P ntraj -> 0 < p_nmedium P <= p_nsample P ->
  p_kz0rot P = None -> p_kz0refl P = None -> p_boundary P = film -> p_run P = false ->
  exists oo, film_run nevents ntraj spot tmin tmax pmin pmax mu_scat P D = Ok oo
    /\ forall o, oo = Some o ->
         0 <= o_refl o /\ 0 <= o_trans o /\ o_refl o + o_trans o <= 1
         /\ (plain P -> full_detection P -> p_muabs P = 0 -> o_refl o + o_trans o = 1).
Proof. exact film_run_ok. Qed.
Print Assumptions C103_film_run.

(** C103, spheres, with or without re-runs, any recursion limit: a run always
    gives numbers.  The radial launch draws must be non-zero (a draw of exactly
    0 starts a trajectory on the axis, with a NaN direction: C20). *)
Theorem C103_sphere_run : forall nevents ntraj spot mu_scat P D,
  (0 < nevents)%nat -> (0 < ntraj)%nat -> 0 < p_thickness P -> 0 < spot <= p_thickness P ->
  0 < mu_scat -> 0 <= p_muabs P ->
  (forall i, 0 < d_l0 D i < 1) -> (forall n i, 0 <= d_u D n i < 1) ->
  (forall d i n, 0 <= d_rstep D d i n) ->
  valid_params P ntraj -> plain P -> 0 < p_nmedium P <= p_nsample P -> p_boundary P = sphere ->
  exists o, sphere_run nevents ntraj spot mu_scat P D = Ok (Some o)
    /\ 0 <= o_refl o /\ 0 <= o_trans o /\ o_refl o + o_trans o <= 1
    /\ (full_detection P -> p_muabs P = 0 -> o_refl o + o_trans o = 1).
Proof. exact sphere_run_ok. Qed.
Print Assumptions C103_sphere_run.

(** Concrete runs that meet the hypotheses: 100 trajectories of 300 events,
    an index contrast, oblique launch, re-runs for the sphere. *)
Definition half_draws : draws :=
  mk_draws (fun _ => 1 / 2) (fun _ => 1 / 3) (fun _ => 1 / 2) (fun _ => 1 / 4)
    (fun i n => (INR (i + n), INR (i * n))) (fun n i => INR (n mod 2) / 2)
    (fun d i n => (INR (d + i), INR n)) (fun d i n => INR (d + i + n)).
Definition film_call : params :=
  mk_params 50 1 (3 / 2) film 0 (PI / 2) None None false 20 (1 / 100) 0 None None None 0 None None.
Definition sphere_call : params :=
  mk_params 10 1 (4 / 3) sphere 0 (PI / 2) None None true 20 (1 / 100) 0 None None None 0 None None.

Lemma mod2_half n : 0 <= INR (n mod 2) / 2 < 1.
Proof.
  assert (H : (n mod 2 < 2)%nat) by (apply Nat.mod_upper_bound; lia).
  assert (E : (n mod 2 = 0 \/ n mod 2 = 1)%nat) by lia.
  destruct E as [-> | ->]; cbn [INR]; lra.
Qed.

Example film_call_meets : exists oo, film_run 300 100 1 0 (PI / 4) 0 (2 * PI) (1 / 10) film_call half_draws = Ok oo
  /\ forall o, oo = Some o -> o_refl o + o_trans o = 1.
Proof.
  destruct (C103_film_run 300 100 1 0 (PI / 4) 0 (2 * PI) (1 / 10) film_call half_draws)
    as (oo & E & H); try reflexivity; try (cbn; lra); try lia.
  - intros i. cbn. lra.
  - intros i. cbn. lra.
  - intros n i. apply mod2_half.
  - unfold valid_params, film_call; cbn. repeat split; try lra; discriminate.
  - exists oo. split; [exact E|]. intros o Ho. apply (proj2 (proj2 (proj2 (H o Ho)))); repeat split.
Qed.

Example sphere_call_meets : exists o, sphere_run 300 100 10 (1 / 10) sphere_call half_draws = Ok (Some o)
  /\ o_refl o + o_trans o = 1.
Proof.
  destruct (C103_sphere_run 300 100 10 (1 / 10) sphere_call half_draws)
    as (o & E & H); try reflexivity; try (cbn; lra); try lia.
  - intros i. cbn. lra.
  - intros n i. apply mod2_half.
  - intros d i n. apply pos_INR.
  - unfold valid_params, sphere_call; cbn. repeat split; try lra; discriminate.
  - repeat split.
  - exists o. split; [exact E|]. apply (proj2 (proj2 (proj2 H))); reflexivity.
Qed.
