(** C12-C21, C63: trajectories and initial conditions
    (structcol/montecarlo.py).  Proofs in L_montecarlo.v, L_montecarlo2.v. *)
From Coq Require Import Lra Lia.
From Verif Require Import Spec Num M_init M_montecarlo L_init L_montecarlo L_montecarlo2.
Open Scope R_scope.

(** C12: one trajectory (columns are independent): [k0] its initial direction,
    [rest] the other slots of its direction column. *)
Theorem C12_scatter_keeps_length : forall k0 rest angles ks,
  scatter (k0 :: rest) angles = Ok ks ->
  hd vzero ks = k0 /\ length ks = S (length rest)
  /\ Forall (fun k => vlen k = vlen k0) ks.
Proof. exact scatter_keeps_length. Qed.
Print Assumptions C12_scatter_keeps_length.

Theorem C12_scatter_succeeds : forall k0 rest angles,
  (length rest <= length angles)%nat <-> exists ks, scatter (k0 :: rest) angles = Ok ks.
Proof. exact scatter_succeeds. Qed.
Print Assumptions C12_scatter_succeeds.

(** C13.  The full statement (the angle between consecutive directions is the
    sampled theta, for every incoming direction) is false: the rotation is
    about the fixed y and z axes.  True for a direction along z; a direction
    along y turns by phi instead of theta. *)
Theorem C13_scatter_angle_partial : forall c t p,
  (c = 1 \/ c = -1) -> dot (scatter1 (0, 0, c) t p) (0, 0, c) = cos t.
Proof. exact scatter_angle_axis. Qed.
Print Assumptions C13_scatter_angle_partial.

Theorem C13_scatter_angle_y : forall t p, dot (scatter1 (0, 1, 0) t p) (0, 1, 0) = cos p.
Proof. exact scatter_angle_y. Qed.
Print Assumptions C13_scatter_angle_y.

Theorem C13_scatter_angle_refuted :
  exists k0 t p ks, unit k0 /\ scatter [k0; vzero] [(t, p)] = Ok ks
    /\ dot (nth 1 ks vzero) (nth 0 ks vzero) <> cos t.
Proof. exact scatter_angle_refuted_l. Qed.
Print Assumptions C13_scatter_angle_refuted.

(** C14 *)
Theorem C14_beer_lambert : forall mu w s i,
  length w = length s -> (i < length s)%nat ->
  nth i (absorb mu w s) 0 = nth i w 0 * exp (- (mu * total (firstn (S i) s))).
Proof. exact absorb_nth. Qed.
Print Assumptions C14_beer_lambert.

Theorem C14_weights_bounded : forall mu w0 s i,
  0 <= mu -> 0 <= w0 -> Forall (fun x => 0 <= x) s -> (i < length s)%nat ->
  0 <= nth i (absorb mu (repeat w0 (length s)) s) 0 <= w0.
Proof. exact absorb_bounds. Qed.
Print Assumptions C14_weights_bounded.

Theorem C14_weights_decrease : forall mu w0 s i,
  0 <= mu -> 0 <= w0 -> Forall (fun x => 0 <= x) s -> (S i < length s)%nat ->
  nth (S i) (absorb mu (repeat w0 (length s)) s) 0
  <= nth i (absorb mu (repeat w0 (length s)) s) 0.
Proof. exact absorb_decreasing. Qed.
Print Assumptions C14_weights_decrease.

Theorem C14_no_absorption : forall w s, length w = length s -> absorb 0 w s = w.
Proof. exact absorb_zero. Qed.
Print Assumptions C14_no_absorption.

(** C15 *)
Theorem C15_positions_add_up : forall p0 rest dirs step i,
  length dirs = length step -> (i <= length step)%nat ->
  nth i (move (p0 :: rest) dirs step) vzero
  = vadd p0 (vtotal (firstn i (map2 vscale step dirs))).
Proof. exact move_nth. Qed.
Print Assumptions C15_positions_add_up.

Theorem C15_one_more_position : forall p0 rest dirs step,
  length dirs = length step -> length (move (p0 :: rest) dirs step) = S (length step).
Proof. exact move_length. Qed.
Print Assumptions C15_one_more_position.

Theorem C15_consecutive_positions : forall p0 rest dirs step i,
  length dirs = length step -> (i < length step)%nat ->
  vsub (nth (S i) (move (p0 :: rest) dirs step) vzero)
       (nth i (move (p0 :: rest) dirs step) vzero)
  = vscale (nth i step 0) (nth i dirs vzero).
Proof. exact move_step. Qed.
Print Assumptions C15_consecutive_positions.

Theorem C15_distance_below_path : forall p0 rest dirs step i,
  length dirs = length step -> (i <= length step)%nat ->
  Forall unit dirs -> Forall (fun s => 0 <= s) step ->
  vlen (vsub (nth i (move (p0 :: rest) dirs step) vzero) p0) <= total (firstn i step).
Proof. exact move_distance. Qed.
Print Assumptions C15_distance_below_path.

(** C16: entry by entry, the step of draw u is at least l exactly when
    u >= 1 - exp(-mu l). *)
Theorem C16_exponential_law : forall ntraj mu fr rand rm,
  0 <= fr <= 1 -> 0 < mu -> Forall (Forall (fun u => 0 <= u < 1)) rand ->
  exists steps, sample_step ntraj mu None fr rand rm = Ok steps
    /\ Forall2 (Forall2 (fun u s => 0 <= s /\
          forall l, l <= s <-> 1 - exp (- (mu * l)) <= u)) rand steps.
Proof. exact sample_step_law. Qed.
Print Assumptions C16_exponential_law.

(** C17 *)
Theorem C17_fine_roughness_range : forall ntraj mu mm fr rand rm,
  (fr < 0 \/ 1 < fr) -> sample_step ntraj mu mm fr rand rm = Err ValueError.
Proof. exact sample_step_error. Qed.
Print Assumptions C17_fine_roughness_range.

Theorem C17_fine_roughness_share : forall ntraj mu mm fr row0 rows rm,
  0 <= fr <= 1 -> length row0 = ntraj ->
  exists m step0,
    sample_step ntraj mu (Some mm) fr (row0 :: rows) rm
      = Ok (step0 :: map (map (fun u => - ln (1 - u) / mu)) rows)
    /\ Rabs (INR m - INR ntraj * fr) <= 1 / 2
    /\ (m <= ntraj)%nat
    /\ length step0 = ntraj
    /\ (forall i, (i < m)%nat -> nth i step0 0 = - ln (1 - rm i) / mm)
    /\ (forall i, (m <= i < ntraj)%nat -> nth i step0 0 = - ln (1 - nth i row0 0) / mu).
Proof. exact sample_step_mie. Qed.
Print Assumptions C17_fine_roughness_share.

(** C18: [ux], [uy], [ut], [up] are the random draws; angle data, when given,
    replace the drawn angles. *)
Theorem C18_film_launch : forall nevents ntraj spot td pd tmin tmax pmin pmax nm ns ux uy ut up,
  0 < spot -> 0 < nm -> 0 < ns -> in01 ux -> in01 uy ->
  (forall l, td = Some l -> length l = ntraj) -> (forall l, pd = Some l -> length l = ntraj) ->
  exists l, initialize_film nevents ntraj spot None td pd tmin tmax pmin pmax nm ns ux uy ut up = Ok l
    /\ length l = ntraj
    /\ forall i p d w, nth_error l i = Some (p, d, w) ->
         let theta := match td with Some t => nth i t 0 | None => tmin + (tmax - tmin) * ut i end in
         let phi := match pd with Some t => nth i t 0 | None => pmin + (pmax - pmin) * up i end in
         vz p = 0 /\ 0 <= vx p < spot /\ 0 <= vy p < spot /\ w = repeat 1 nevents
         /\ (nm <= ns -> d <> None)
         /\ (forall k, d = Some k ->
               unit k /\ 0 <= vz k /\ ns * vx k = nm * (sin theta * cos phi)
               /\ ns * vy k = nm * (sin theta * sin phi)).
Proof.
  intros nevents ntraj spot td pd tmin tmax pmin pmax nm ns ux uy ut up H1 H2 H3 H4 H5 H6 H7.
  destruct (initialize_film_ok nevents ntraj spot td pd tmin tmax pmin pmax nm ns ux uy ut up
              H1 H2 H3 H4 H5 H6 H7) as [l [Hl [Hn Hs]]].
  exists l. split; [exact Hl|]. split; [exact Hn|].
  intros i p d w Hi. exact (Hs i (p, d, w) Hi).
Qed.
Print Assumptions C18_film_launch.

Theorem C18_film_launch_errors :
  forall nevents ntraj spot sd td pd tmin tmax pmin pmax nm ns ux uy ut up,
  initialize_film nevents ntraj spot sd td pd tmin tmax pmin pmax nm ns ux uy ut up = Err ValueError
  <-> (sd <> None \/ (exists l, td = Some l /\ length l <> ntraj)
       \/ (exists l, pd = Some l /\ length l <> ntraj)).
Proof. exact initialize_film_errors. Qed.
Print Assumptions C18_film_launch_errors.

(** C18, uniform over the spot: each coordinate is below [c] exactly when its
    own draw is below the corresponding share of the spot, and every set of
    starting points in the spot is reached by some draws (so the two
    coordinates, and the trajectories, are independent). *)
Theorem C18_spot_uniform : forall nevents ntraj spot tmin tmax pmin pmax nm ns ux uy ut up,
  0 < spot ->
  exists l, initialize_film nevents ntraj spot None None None tmin tmax pmin pmax nm ns ux uy ut up = Ok l
    /\ forall i p d w, nth_error l i = Some (p, d, w) ->
         forall c, (vx p <= c <-> ux i <= c / spot) /\ (vy p <= c <-> uy i <= c / spot).
Proof.
  intros nevents ntraj spot tmin tmax pmin pmax nm ns ux uy ut up Hs.
  eexists. split; [reflexivity|]. intros i p d w Hi c.
  apply map_seq_nth_error in Hi. destruct Hi as [_ Hi]. inversion Hi; subst.
  assert (Q : forall u, u * spot <= c <-> u <= c / spot).
  { intros u. split; intros H.
    - apply Rmult_le_reg_r with spot; [exact Hs|]. unfold Rdiv. rewrite Rmult_assoc, Rinv_l by lra. lra.
    - apply (Rmult_le_compat_r spot) in H; [|lra]. unfold Rdiv in H.
      rewrite Rmult_assoc, Rinv_l in H by lra. lra. }
  cbn [vx vy fst snd]. split; apply Q.
Qed.
Print Assumptions C18_spot_uniform.

Theorem C18_spot_filled : forall nevents ntraj spot tmin tmax pmin pmax nm ns ut up a b,
  0 < spot -> (forall i, 0 <= a i < spot) -> (forall i, 0 <= b i < spot) ->
  exists ux uy, in01 ux /\ in01 uy
    /\ exists l, initialize_film nevents ntraj spot None None None tmin tmax pmin pmax nm ns ux uy ut up = Ok l
    /\ length l = ntraj
    /\ forall i p d w, nth_error l i = Some (p, d, w) -> p = (a i, b i, 0).
Proof.
  intros nevents ntraj spot tmin tmax pmin pmax nm ns ut up a b Hs Ha Hb.
  exists (fun i => a i / spot), (fun i => b i / spot).
  assert (Q : forall f : nat -> R, (forall i, 0 <= f i < spot) -> in01 (fun i => f i / spot)).
  { intros f Hf i. specialize (Hf i). split.
    - apply Rmult_le_pos; [lra|]. left. apply Rinv_0_lt_compat; lra.
    - apply Rmult_lt_reg_r with spot; [lra|]. unfold Rdiv. rewrite Rmult_assoc, Rinv_l by lra. lra. }
  split; [now apply Q|]. split; [now apply Q|].
  eexists. split; [reflexivity|]. split; [now rewrite map_length, seq_length|].
  intros i p d w Hi. apply map_seq_nth_error in Hi. destruct Hi as [_ Hi]. inversion Hi; subst.
  f_equal. f_equal; field; lra.
Qed.
Print Assumptions C18_spot_filled.

(** C19: [sphere_start_ok] is in Spec.v. *)
Theorem C19_sphere_launch : forall nevents ntraj spot d nm ns ur uth,
  0 < d -> 0 <= spot <= d -> in01 ur ->
  exists l, initialize_sphere nevents ntraj spot (Some d) nm ns ur uth = Ok l
    /\ length l = ntraj
    /\ Forall (fun s => let '(p, _, w) := s in
                 sphere_start_ok spot (d / 2) p /\ w = repeat 1 nevents) l.
Proof. exact initialize_sphere_ok. Qed.
Print Assumptions C19_sphere_launch.

(** C19, uniform over the beam's disc: the start is within distance [c] of the
    axis exactly when the radial draw is below the share of the disc's area,
    and the other draw is the fraction of a turn around the axis. *)
Theorem C19_sphere_uniform : forall nevents ntraj spot d nm ns ur uth,
  0 < spot -> in01 ur ->
  exists l, initialize_sphere nevents ntraj spot (Some d) nm ns ur uth = Ok l
    /\ forall i p k w, nth_error l i = Some (p, k, w) ->
         (forall c, 0 <= c ->
            (vx p ^ 2 + vy p ^ 2 <= c ^ 2 <-> ur i <= (PI * c ^ 2) / (PI * (spot / 2) ^ 2)))
         /\ vx p = sqrt (vx p ^ 2 + vy p ^ 2) * cos (2 * PI * uth i)
         /\ vy p = sqrt (vx p ^ 2 + vy p ^ 2) * sin (2 * PI * uth i).
Proof.
  intros nevents ntraj spot d nm ns ur uth Hs Hu.
  eexists. split; [reflexivity|]. intros i p k w Hi.
  apply map_seq_nth_error in Hi. destruct Hi as [_ Hi]. inversion Hi; subst. clear Hi.
  unfold sphere_start_pos. cbn [vx vy fst snd].
  destruct (Hu i) as [Hu0 _]. pose proof (sqrt_pos (ur i)) as Hq. pose proof (sqrt_sqrt _ Hu0) as Hqq.
  set (q := sqrt (ur i)) in *. set (th := 2 * PI * uth i).
  pose proof (sin2_cos2 th) as Hsc. unfold Rsqr in Hsc.
  assert (E : (q * spot / 2 * cos th) ^ 2 + (q * spot / 2 * sin th) ^ 2 = ur i * (spot / 2) ^ 2).
  { rewrite <- Hqq.
    transitivity (q * q * (spot / 2) ^ 2 * (sin th * sin th + cos th * cos th)); [field|rewrite Hsc; ring]. }
  rewrite E. pose proof PI_RGT_0 as Hpi.
  assert (H2 : 0 < (spot / 2) ^ 2) by (apply pow_lt; lra).
  split.
  - intros c _.
    replace (PI * c ^ 2 / (PI * (spot / 2) ^ 2)) with (c ^ 2 / (spot / 2) ^ 2) by (field; lra).
    assert (E2 : c ^ 2 / (spot / 2) ^ 2 * (spot / 2) ^ 2 = c ^ 2) by (field; lra).
    split; intros H.
    + apply Rmult_le_reg_r with ((spot / 2) ^ 2); [exact H2|]. rewrite E2. exact H.
    + apply (Rmult_le_compat_r ((spot / 2) ^ 2)) in H; [|lra]. rewrite E2 in H. exact H.
  - replace (sqrt (ur i * (spot / 2) ^ 2)) with (q * spot / 2); [split; reflexivity|].
    rewrite sqrt_mult by lra. rewrite sqrt_pow2 by lra. unfold q. field.
Qed.
Print Assumptions C19_sphere_uniform.

Theorem C19_sphere_needs_diameter : forall nevents ntraj spot nm ns ur uth,
  initialize_sphere nevents ntraj spot None nm ns ur uth = Err ValueError.
Proof. reflexivity. Qed.
Print Assumptions C19_sphere_needs_diameter.

(** C20.  The full statement (the launch direction is +z refracted at the
    surface) is false: without index contrast the code starts every off-axis
    trajectory along the inward normal, and an on-axis one with NaN. *)
Theorem C20_sphere_entry_is_normal : forall radius p n,
  0 < radius -> 0 < n ->
  vx p ^ 2 + vy p ^ 2 + (vz p - radius) ^ 2 = radius ^ 2 -> 0 <= vz p <= radius ->
  vx p ^ 2 + vy p ^ 2 <> 0 ->
  sphere_entry_dir radius p n n
  = Some (vscale (/ radius) (- vx p, - vy p, radius - vz p)).
Proof. exact sphere_entry_no_contrast. Qed.
Print Assumptions C20_sphere_entry_is_normal.

Theorem C20_sphere_entry_refuted :
  exists d spot ur uth n p k,
    0 < d /\ 0 < n /\ 0 < spot <= d /\ 0 <= ur < 1 /\ 0 <= uth < 1
    /\ initialize_sphere 1 1 spot (Some d) n n (fun _ => ur) (fun _ => uth)
       = Ok [(p, Some k, [1])]
    /\ k <> ez.
Proof. exact sphere_entry_refuted_l. Qed.
Print Assumptions C20_sphere_entry_refuted.

Theorem C20_sphere_axis_nan : forall radius nm ns,
  0 < radius -> sphere_entry_dir radius (0, 0, 0) nm ns = None.
Proof. exact sphere_entry_axis_nan. Qed.
Print Assumptions C20_sphere_axis_nan.

(** C21 *)
Theorem C21_phase_function_distribution : forall par perp,
  length par = length perp ->
  Forall (fun x => 0 <= x) par -> Forall (fun x => 0 <= x) perp ->
  total par + total perp <> 0 ->
  exists q, phase_function_p par perp = map Some q /\ length q = length par
    /\ Forall (fun x => 0 <= x) q /\ total q = 1.
Proof. exact phase_function_dist. Qed.
Print Assumptions C21_phase_function_distribution.

Theorem C21_sampling_distribution : forall p min_angle,
  0 <= min_angle <= PI -> Forall (fun x => 0 <= x) p ->
  total (map2 (fun x t => x * sin t) p (linspace min_angle PI (length p))) <> 0 ->
  exists q, sample_angles_prob p min_angle = map Some q /\ length q = length p
    /\ Forall (fun x => 0 <= x) q /\ total q = 1.
Proof. exact sample_angles_dist. Qed.
Print Assumptions C21_sampling_distribution.

(** C63: [facet_normal], [mirror] are in Spec.v. *)
Theorem C63_rough_reflection : forall k t nm ns refr kzr refl,
  rough_enter1 k t nm ns = (refr, kzr, refl) ->
  refl = mirror (facet_normal t) k /\ kzr = dot k (facet_normal t) /\ dot refl refl = dot k k.
Proof. exact rough_reflection. Qed.
Print Assumptions C63_rough_reflection.

Theorem C63_rough_refracted_unit : forall k t nm ns k' kzr refl,
  0 < Rabs ns -> rough_enter1 k t nm ns = (Some k', kzr, refl) -> unit k'.
Proof. exact rough_refracted_unit. Qed.
Print Assumptions C63_rough_refracted_unit.

Theorem C63_sphere_rejected : forall k0s ts nm ns,
  coarse_roughness_enter sphere k0s ts nm ns = Err ValueError.
Proof. reflexivity. Qed.
Print Assumptions C63_sphere_rejected.

(** Beyond C63: refraction at the facet does not obey Snell's law.  Without
    index contrast the ray should go straight on; the code bends it out of the
    plane of incidence (azimuth taken as acos(kx), never negative). *)
Theorem C63_rough_refraction_refuted :
  exists k0 t n k' kzr refl,
    unit k0 /\ 0 < n /\ 0 < t < PI / 2
    /\ coarse_roughness_enter film [k0] [t] n n = Ok [(Some k', kzr, refl)]
    /\ k' <> k0.
Proof. exact rough_refraction_refuted_l. Qed.
Print Assumptions C63_rough_refraction_refuted.

Theorem C63_rough_leaves_plane : forall t n,
  0 < n -> 0 < t < PI / 2 ->
  exists k' kzr refl, rough_enter1 ez t n n = (Some k', kzr, refl)
    /\ vy k' = sin t * cos t /\ vy k' > 0.
Proof. exact rough_leaves_plane. Qed.
Print Assumptions C63_rough_leaves_plane.

Theorem C63_slope_density_nonneg : forall t r, 0 <= t < PI / 2 -> r <> 0 -> 0 <= P_theta_a t r.
Proof. exact P_theta_a_nonneg. Qed.
Print Assumptions C63_slope_density_nonneg.

(** * Non-vacuity *)
Example mc_ex_scatter :
  exists ks, scatter [ez; vzero; vzero] [(PI / 3, 0); (PI / 2, PI)] = Ok ks.
Proof. eexists; reflexivity. Qed.
Example mc_ex_steps : Forall (Forall (fun u => 0 <= u < 1)) [[0; 1 / 2]; [1 / 4; 3 / 4]].
Proof. repeat (apply Forall_cons || apply Forall_nil); lra. Qed.
Example mc_ex_path : Forall unit [ez; (3 / 5, 0, 4 / 5)] /\ Forall (fun s => 0 <= s) [1; 2].
Proof. split; repeat (apply Forall_cons || apply Forall_nil); unfold unit, dot, ez; cbn; lra. Qed.
Example mc_ex_in01 : in01 (fun i => 1 / (INR i + 2)).
Proof.
  intros i. pose proof (pos_INR i).
  assert (0 < INR i + 2) by lra. split.
  - apply Rlt_le, Rdiv_lt_0_compat; lra.
  - apply (Rmult_lt_reg_r (INR i + 2)); [lra|]. unfold Rdiv. rewrite Rmult_assoc, Rinv_l; lra.
Qed.
Example mc_ex_cross_sections :
  total [1; 2; 0] + total [0; 1; 3] <> 0.
Proof. cbn; lra. Qed.
