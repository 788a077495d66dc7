(** C153: the coherent reflectance averaged over random launch phases
    (structcol/detector_polarization_phase.py, initialize with coherent=False
    in structcol/montecarlo.py).  Vocabulary in Spec_mean.v (means over
    independent uniform variables) and Spec_polarization.v. *)
From Coq Require Import Lra Lia Psatz Reals List.
From Verif Require Import Num Spec Spec_polarization Spec_fields Spec_detector Spec_scatter Spec_mean
  M_init M_montecarlo M_detector M_simulation M_polarization M_fields M_fieldflow
  L_num L_mean L_fieldflow L_fieldmean Properties_polarization Properties_detector Properties_fieldflow.
From Coquelicot Require Import Complex.
Open Scope R_scope.

(** A mean is unique. *)
Theorem C153_unique : forall n F a b, is_mean n F a -> is_mean n F b -> a = b.
Proof. intros n F a b. exact (is_mean_unique n F F a b (fun _ => eq_refl)). Qed.
Print Assumptions C153_unique.

(** C153.  Fields [F i], event of reflection [I i] (0: none), reflectance
    [r i].  Multiply all the fields of trajectory [i] by exp(2 pi i t_i).  The
    incoherent reflectance does not change; averaged over independent uniform
    t_i the coherent reflectance is exactly the incoherent one, and the co-,
    cross- and perpendicular intensities are the sums over the reflected
    trajectories of those of the single trajectories, times their number. *)
Theorem C153_phases : forall n nev F I r det,
  field_run n nev F I r ->
  exists (co cr perp coh : (nat -> R) -> R) inc,
    (forall t, co_cross n (fun i => map (fturn (expi (2 * PI * t i))) (F i)) I r det = Ok (co t, cr t, perp t, coh t, inc))
    /\ inc = over_reflected n I (fun i => r i * strength (out_field F I i))
    /\ is_mean n coh inc
    /\ is_mean n co (INR n * over_reflected n I (fun i => r i *
          Cmod (Cplus (Cmult (RtoC (cos det)) (fx (out_field F I i))) (Cmult (RtoC (sin det)) (fz (out_field F I i)))) ^ 2))
    /\ is_mean n cr (INR n * over_reflected n I (fun i => r i * Cmod (fy (out_field F I i)) ^ 2))
    /\ is_mean n perp (INR n * over_reflected n I (fun i => r i *
          Cmod (Cplus (Copp (Cmult (RtoC (sin det)) (fx (out_field F I i)))) (Cmult (RtoC (cos det)) (fz (out_field F I i)))) ^ 2)).
Proof. exact phases_mean. Qed.
Print Assumptions C153_phases.

(** The same for whole calculations launched with coherent=False: shifting
    the random launch phases of trajectory [i] by [t i] (in units of a full
    turn) changes neither the trajectories nor the detection, and the coherent
    reflectance averages to the incoherent one. *)
Theorem C153_run : forall nevents ntraj spot tmin tmax pmin pmax mu_scat amp nk wavelen polarized documented det_theta P D ux uy trs fss o c0,
  (0 < nevents)%nat -> (0 < ntraj)%nat -> 0 < spot -> 0 < mu_scat -> 0 <= p_muabs P ->
  in01 (d_l0 D) -> in01 (d_l1 D) -> (forall n i, 0 <= d_u D n i < 1) ->
  valid_params P ntraj -> 0 < p_nmedium P <= p_nsample P ->
  p_kz0rot P = None -> p_kz0refl P = None -> p_boundary P = M_montecarlo.film -> p_run P = false ->
  fields_run nevents ntraj spot tmin tmax pmin pmax mu_scat amp nk wavelen false polarized documented det_theta P D ux uy
    = Ok (Some (trs, fss, o, c0)) ->
  exists (co cr perp coh : (nat -> R) -> R) inc,
    (forall t, exists fss', fields_run nevents ntraj spot tmin tmax pmin pmax mu_scat amp nk wavelen false polarized documented det_theta P D
         (fun i => ux i + t i) (fun i => uy i + t i) = Ok (Some (trs, fss', o, (co t, cr t, perp t, coh t, inc))))
    /\ is_mean ntraj coh inc
    /\ is_mean ntraj (fun t => co t + cr t + perp t) (INR ntraj * inc).
Proof. exact run_mean. Qed.
Print Assumptions C153_run.

(** The hypotheses hold for the run of C152_case, whose trajectory is
    reflected. *)
Example C153_run_case : exists (coh : (nat -> R) -> R) inc o,
  (forall t, exists trs fss' co cr perp,
    fields_run 2 1 1 0 0 0 0 1 (fun _ _ => (RtoC 1, RtoC 1, RtoC 0, RtoC 0)) 1.5 1 false false false 0 ex_film back_draws
      (fun i => 1 / 3 + t i) (fun i => 1 / 4 + t i) = Ok (Some (trs, fss', o, (co, cr, perp, coh t, inc))))
  /\ is_mean 1 coh inc.
Proof.
  destruct C152_case as (trs & fss & o & co0 & cr0 & perp0 & coh0 & inc0 & E & _).
  destruct (C153_run 2 1 1 0 0 0 0 1 (fun _ _ => (RtoC 1, RtoC 1, RtoC 0, RtoC 0)) 1.5 1 false false 0 ex_film back_draws (fun _ => 1 / 3) (fun _ => 1 / 4)
     trs fss o (co0, cr0, perp0, coh0, inc0)) as (co & cr & perp & coh & inc & H & M & _);
    try lia; try lra; try reflexivity; try (cbn; lra).
  { intros i. cbn. lra. } { intros i. cbn. lra. } { exact back_u. } { apply ex_film_valid. } { exact E. }
  exists coh, inc, o. split; [|exact M]. intros t. destruct (H t) as (fss' & Ht). exists trs, fss', (co t), (cr t), (perp t). exact Ht.
Qed.

(** Two trajectories in opposite phase: the coherent reflectance vanishes,
    the mean over the phases is 1. *)
Example C153_phases_case : exists tx ty tz,
  phase_fields 2 ex_fields (fun _ => 1%nat) (fun _ => 1 / 2) = Ok (tx, ty, tz, 0, 1)
  /\ exists (co cr perp coh : (nat -> R) -> R),
       (forall t, co_cross 2 (fun i => map (fturn (expi (2 * PI * t i))) (ex_fields i)) (fun _ => 1%nat) (fun _ => 1 / 2) 0
          = Ok (co t, cr t, perp t, coh t, 1))
       /\ is_mean 2 coh 1.
Proof.
  destruct ex_cancel as (tx & ty & tz & coh0 & inc0 & E & -> & ->). exists tx, ty, tz. split; [exact E|].
  destruct (C153_phases 2 1 ex_fields (fun _ => 1%nat) (fun _ => 1 / 2) 0 ex_field_run) as (co & cr & perp & coh & inc & H & Hi & M & _).
  destruct (L_polarization.phase_fields_spec 2 1 ex_fields (fun _ => 1%nat) (fun _ => 1 / 2) ex_field_run) as (tx' & ty' & tz' & coh' & inc' & E' & _ & _ & Hi' & _).
  assert (J : inc = 1) by congruence. clear Hi Hi' E'. subst inc. exists co, cr, perp, coh. split; [exact H|exact M].
Qed.
