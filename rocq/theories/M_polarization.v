(** Model of structcol/detector_polarization_phase.py.  No proofs here.

    The fields of a trajectory are a list of complex 3-vectors, one per event,
    the first for the light before it enters the sample; arrays over
    trajectories are lists of equal length. *)
From Verif Require Export Num M_init M_detector M_event_distribution.
From Coquelicot Require Export Complex.
Open Scope R_scope.

Definition field : Type := (C * C * C)%type.
Definition fx (f : field) : C := fst (fst f).
Definition fy (f : field) : C := snd (fst f).
Definition fz (f : field) : C := snd f.
Definition fzero : field := (RtoC 0, RtoC 0, RtoC 0).
Definition fscale (w : R) (f : field) : field :=
  (Cmult (RtoC w) (fx f), Cmult (RtoC w) (fy f), Cmult (RtoC w) (fz f)).

(** [select_events] (structcol/__init__.py:100-149) on one trajectory's fields:
    event 0 selects 0. *)
Definition fselect (l : list field) (ev : nat) : field :=
  match ev with O => fzero | S k => nth k l fzero end.

(** [np.sum] of complex numbers, and [np.real(np.conj(z) * z)]. *)
Definition Csum (l : list C) : C := fold_right Cplus (RtoC 0) l.
Definition intensity (z : C) : R := fst (Cmult (Cconj z) z).

(** structcol/detector_polarization_phase.py:35-126 [calc_refl_phase_fields]
    with components=True: (x, y, z total fields, coherent and incoherent
    reflectance).  The warning (lines 68-72) has no effect on values; the
    reflectances per trajectory are assumed non-negative (np.sqrt is NaN
    otherwise) and the number of trajectories non-zero.  select_events raises
    IndexError for an event number past the last event. *)
Definition calc_refl_phase_fields (fields : list (list field)) (refl_indices : list nat)
  (refl_per_traj : list R) : result (C * C * C * R * R) :=
  let ntraj := INR (length fields) in
  let w := map (fun r => sqrt (r * ntraj)) refl_per_traj in
  let traj_field := map2 (fun a l => map (fscale a) (tl l)) w fields in
  if existsb (fun b => b) (map2 (fun l i => Nat.ltb (length l) i) traj_field refl_indices)
  then Err IndexError
  else
    let refl_field := map2 fselect traj_field refl_indices in
    let tot_x := Csum (map fx refl_field) in
    let tot_y := Csum (map fy refl_field) in
    let tot_z := Csum (map fz refl_field) in
    let refl_non_phase := Rsum (map (fun f => intensity (fx f) + intensity (fy f) + intensity (fz f)) refl_field) in
    let refl_intensity := intensity tot_x + intensity tot_y + intensity tot_z in
    Ok (tot_x, tot_y, tot_z, refl_intensity / ntraj, refl_non_phase / ntraj).

(** structcol/detector_polarization_phase.py:129-175
    [calc_refl_co_cross_fields]: (co, cross, perpendicular, coherent,
    incoherent). *)
Definition calc_refl_co_cross_fields (fields : list (list field)) (refl_indices : list nat)
  (refl_per_traj : list R) (det_theta : R) : result (R * R * R * R * R) :=
  bind (calc_refl_phase_fields fields refl_indices refl_per_traj)
    (fun o => let '(tot_x, tot_y, tot_z, refl_field, refl_intensity) := o in
      let tot_co := Cplus (Cmult tot_x (RtoC (cos det_theta))) (Cmult tot_z (RtoC (sin det_theta))) in
      let tot_cr := tot_y in
      let tot_perp := Cplus (Cmult (Copp tot_x) (RtoC (sin det_theta))) (Cmult tot_z (RtoC (cos det_theta))) in
      Ok (intensity tot_co, intensity tot_cr, intensity tot_perp, refl_field, refl_intensity)).

(** structcol/detector_polarization_phase.py:178-248 [calc_traj_time]:
    (trajectory times, travel times).  [dwell] is pymie's dwell time (not
    modelled); [c] the speed of light and [n_sample] the real part of the
    sample's index. *)
Definition calc_traj_time (c dwell n_sample : R) (steps : list (list R)) (exit_indices : list nat)
  : list R * list R :=
  let path := map2 (fun s k => Rsum (firstn k s)) steps exit_indices in
  let velocity := c / n_sample in
  let travel := map (fun p => p / velocity) path in
  (map2 (fun p t => if Reqb p 0 then 0 else t + dwell) path travel, travel).
