(** Model of structcol/detector.py.  No proofs in this file.

    A (3, nevents, ntraj) array is a list over trajectories of columns; a 1-D
    array of length ntraj is a list.  [vec] is a triple of coordinates.  All
    quantities are plain numbers (set_up_values, lines 603-648, strips units
    and copies the trajectories, so callers never see a mutation). *)
From Verif Require Export Num M_init M_model M_montecarlo.
From Verif Require Import Spec.
Open Scope R_scope.

(** structcol/detector.py:47 *)
Definition EPS : R := / 10 ^ 9.

(** A trajectory: nevents+1 positions, nevents directions, nevents weights. *)
Record traj := mk_traj { t_pos : list vec; t_dir : list vec; t_w : list R }.

(** [select_events] (structcol/__init__.py:100-149) on a 3-component array, one
    trajectory: the vector at event [ev], zero for event 0. *)
Definition vselect (l : list vec) (ev : nat) : vec :=
  match ev with O => vzero | S i => nth i l vzero end.

(** [select_events] on a scalar array, over all trajectories. *)
Definition select_all (cols : list (list R)) (idx : list nat) : list R :=
  map2 select_col cols idx.

(* ------------------------------------------------------------------ *)
(** * Geometry of the sphere *)

(** structcol/detector.py:50-89 [inf_to_large], one trajectory.  The lower
    bound is applied to every coordinate but z0 (lines 83-87). *)
Definition cap_hi (r x : R) : R := if Rltb (10 ^ 20 * r) x then 100 * r else x.
Definition cap_lo (r x : R) : R := if Rltb x (- (10 ^ 20) * r) then - 100 * r else x.
Definition inf_to_large (p0 p1 : vec) (radius : R) : vec * vec :=
  ((cap_lo radius (cap_hi radius (vx p0)), cap_lo radius (cap_hi radius (vy p0)),
    cap_hi radius (vz p0)),
   (cap_lo radius (cap_hi radius (vx p1)), cap_lo radius (cap_hi radius (vy p1)),
    cap_lo radius (cap_hi radius (vz p1)))).

(** structcol/detector.py:92-168 [find_vec_sphere_intersect], one trajectory.
    NaN (no direction, or no intersection) becomes distance 0 on both sides and
    leaves the zero vector, as lines 147-166 do. *)
Definition find_vec_sphere_intersect (p0 p1 : vec) (radius : R) : vec :=
  match normalize1 (vsub p1 p0) with
  | None => vzero
  | Some k =>
      let a := vx k ^ 2 + vy k ^ 2 + vz k ^ 2 in
      let b := 2 * (vx k * vx p0 + vy k * vy p0 + vz k * vz p0) in
      let c := vx p0 ^ 2 + vy p0 ^ 2 + vz p0 ^ 2 - radius ^ 2 in
      let disc := b ^ 2 - 4 * a * c in
      if Rltb disc 0 then vzero
      else
        let t_p := (- b + sqrt disc) / (2 * a) in
        let t_m := (- b - sqrt disc) / (2 * a) in
        let int_p := (vx p0 + t_p * vx k, vy p0 + t_p * vy k, vz p0 + t_p * vz k) in
        let int_m := (vx p0 + t_m * vx k, vy p0 + t_m * vy k, vz p0 + t_m * vz k) in
        let dist q := (vx q - vx p1) ^ 2 + (vy q - vy p1) ^ 2 + (vz q - vz p1) ^ 2 in
        if Rltb (dist int_p) (dist int_m) then int_p
        else if Rltb (dist int_m) (dist int_p) then int_m
        else vzero
  end.

(** structcol/detector.py:280-305 [rotate_refract]: [p] = (a,b,c), axis
    [n] = (u,v,w), vector [k], angle [alpha]. *)
Definition rotate_refract (p n k : vec) (alpha : R) : vec :=
  let '(a, b, c) := p in
  let '(u, v, w) := n in
  let x := a + vx k in
  let y := b + vy k in
  let z := c + vz k in
  let x_rot := (a * (v ^ 2 + w ^ 2) - u * (b * v + c * w - u * x - v * y - w * z))
               * (1 - cos alpha) + x * cos alpha
               + (- c * v + b * w - w * y + v * z) * sin alpha in
  let y_rot := (b * (u ^ 2 + w ^ 2) - v * (a * u + c * w - u * x - v * y - w * z))
               * (1 - cos alpha) + y * cos alpha
               + (c * u - a * w + w * x - u * z) * sin alpha in
  let z_rot := (c * (u ^ 2 + v ^ 2) - w * (a * u + b * v - u * x - v * y - w * z))
               * (1 - cos alpha) + z * cos alpha
               + (- b * u + a * v - v * x + u * y) * sin alpha in
  (x_rot - a, y_rot - b, z_rot - c).

(** structcol/detector.py:2190-2216 [rotate_reflect]. *)
Definition rotate_reflect (k_out normal : vec) : vec :=
  let d := vx k_out * vx normal + vy k_out * vy normal + vz k_out * vz normal in
  (vx k_out - 2 * d * vx normal, vy k_out - 2 * d * vy normal, vz k_out - 2 * d * vz normal).

(* ------------------------------------------------------------------ *)
(** * get_angles *)

(** structcol/detector.py:448-458, film: angle to the normal from a
    z-component.  |cosz| <= 1 is assumed (np.arccos is NaN beyond). *)
Definition film_angle (cosz : R) : R := acos (Rabs cosz).

(** structcol/detector.py:342-349, positions relative to the sphere's centre. *)
Definition centred (radius : R) (l : list vec) : list vec :=
  map (fun p => (vx p, vy p, vz p - radius)) l.

(** structcol/detector.py:413-423, 465-466: angle and normal from the
    direction and the boundary point; NaN becomes angle acos 0 = pi/2 and a
    zero normal. *)
Definition sphere_angle_norm (k1 : option vec) (inter : vec) : R * vec :=
  let norm := normalize1 inter in
  let dot_norm := match norm, k1 with
                  | Some n, Some k => Some (vx n * vx k + vy n * vy k + vz n * vz k)
                  | _, _ => None end in
  (acos (nan_to_num dot_norm), match norm with Some n => n | None => vzero end).

(** structcol/detector.py:372-411, sphere, exit at event [ev]. *)
Definition sphere_exit_angle (thickness : R) (t : traj) (ev : nat) : R * vec :=
  let radius := thickness / 2 in
  let pos := centred radius (t_pos t) in
  let '(p0, p1) := inf_to_large (vselect (removelast pos) ev) (vselect (tl pos) ev) radius in
  sphere_angle_norm (normalize1 (vsub p1 p0)) (find_vec_sphere_intersect p0 p1 radius).

(** structcol/detector.py:352-370, sphere, incident light (init_dir given). *)
Definition sphere_entry_angle (thickness : R) (t : traj) (ev : nat) : R * vec :=
  let radius := thickness / 2 in
  let q := vselect (centred radius (t_pos t)) ev in
  sphere_angle_norm (Some (vselect (t_dir t) ev)) (- vx q, - vy q, - vz q).

(** structcol/detector.py:308-468 [get_angles], the angles only, over all
    trajectories; [init_dir = None] is an exit. *)
Definition film_exit_angle (t : traj) (ev : nat) : R :=
  film_angle (select_col (map vz (t_dir t)) ev).
Definition get_angles (idx : list nat) (b : boundary) (trs : list traj)
  (thickness : R) (init_dir : option (list R)) : list R :=
  match b, init_dir with
  | film, None => map2 film_exit_angle trs idx
  | film, Some d => map film_angle d
  | sphere, None => map2 (fun t i => fst (sphere_exit_angle thickness t i)) trs idx
  | sphere, Some _ => map2 (fun t i => fst (sphere_entry_angle thickness t i)) trs idx
  end.

(** structcol/detector.py:171-229 [exit_kz] for a sphere, one trajectory. *)
Definition exit_kz (ev : nat) (t : traj) (thickness n_inside n_outside : R) : num :=
  let '(theta_1, norm) := sphere_exit_angle thickness t ev in
  let k1 := vselect (t_dir t) ev in
  let kr := cross k1 norm in
  match refraction theta_1 n_inside n_outside with
  | None => None
  | Some theta_2 =>
      Some (vz (rotate_refract (vx norm * thickness / 2, vy norm * thickness / 2,
                                vz norm * thickness / 2) kr k1 (theta_2 - theta_1)))
  end.

(* ------------------------------------------------------------------ *)
(** * Exits *)

(** structcol/detector.py:692-717 [find_valid_exits], film, one trajectory:
    (exits_pos_dir, exits_neg_dir, tir_refl_bool).  np.arcsin is NaN past 1 and
    the comparison then false. *)
Definition no_tir_film (n_sample n_medium kz : R) : bool :=
  if Rltb 1 (Rabs (n_medium / n_sample)) then false
  else Rltb (cos (asin (n_medium / n_sample))) (Rabs kz).
Definition z_floor (thickness z_low z : R) : Z := floorZ ((z - z_low) / (thickness - z_low)).
Definition pot_exit (f0 f1 : Z) : bool := negb (Z.eqb (f1 - f0) 0).
Definition pos_dir (f0 f1 : Z) : bool := Z.odd (f0 + if Z.ltb f0 f1 then 1 else 0).
Definition find_valid_exits_film (n_sample n_medium thickness z_low : R) (t : traj)
  : list bool * list bool * list bool :=
  let fl := map (fun p => z_floor thickness z_low (vz p)) (t_pos t) in
  let pot := map2 pot_exit (removelast fl) (tl fl) in
  let pd := map2 pos_dir (removelast fl) (tl fl) in
  let nt := map (fun k => no_tir_film n_sample n_medium (vz k)) (t_dir t) in
  (map3 (fun p n d => p && n && d) pot nt pd,
   map3 (fun p n d => p && n && negb d) pot nt pd,
   map3 (fun p n d => p && negb n && negb d) pot nt pd).

(** structcol/detector.py:719-757 [find_valid_exits], sphere, one trajectory. *)
Definition outside (radius : R) (p : vec) : bool :=
  Rltb (radius ^ 2) (vx p ^ 2 + vy p ^ 2 + (vz p - radius) ^ 2).
Definition find_valid_exits_sphere (n_sample n_medium thickness : R) (t : traj)
  : list bool * list bool * list bool :=
  let pot := map (outside (thickness / 2)) (tl (t_pos t)) in
  let kzc := exit_kz (argmax_padded pot) t thickness n_sample n_medium in
  (map (fun p => p && match kzc with Some z => Rltb 0 z | None => false end) pot,
   map (fun p => p && match kzc with Some z => Rltb z 0 | None => false end) pot,
   map (fun p => p && match kzc with Some _ => false | None => true end) pot).

Definition find_valid_exits (n_sample n_medium thickness z_low : R) (b : boundary) (t : traj)
  : list bool * list bool * list bool :=
  match b with
  | film => find_valid_exits_film n_sample n_medium thickness z_low t
  | sphere => find_valid_exits_sphere n_sample n_medium thickness t
  end.

(** structcol/detector.py:760-822 [find_event_indices], one trajectory:
    (refl, trans, stuck, tir) event numbers. *)
Definition find_event_indices (exits_neg exits_pos tir_refl : list bool)
  : nat * nat * nat * nat :=
  let nevents := length exits_neg in
  let low := argmax_padded exits_neg in
  let high := argmax_padded exits_pos in
  let no_low := Nat.eqb low 0 in
  let no_high := Nat.eqb high 0 in
  let low_smaller := Nat.ltb low high in
  let low_first := no_high || low_smaller in
  let high_first := no_low || negb low_smaller in
  let never := no_low && no_high in
  (low * b2n low_first, high * b2n high_first, b2n never * nevents,
   argmax_padded tir_refl)%nat.

(** Both steps for one trajectory. *)
Definition event_indices (n_tir n_medium thickness z_low : R) (b : boundary) (t : traj)
  : nat * nat * nat * nat :=
  let '(ps, ng, ti) := find_valid_exits n_tir n_medium thickness z_low b t in
  find_event_indices ng ps ti.

(* ------------------------------------------------------------------ *)
(** * Weights *)

(** structcol/detector.py:825-872 [calc_outcome_weights]: (refl, trans, stuck,
    absorb) weights.  The warning (lines 863-870) has no effect on values. *)
Definition calc_outcome_weights (inc : list R) (refl_i trans_i stuck_i : list nat)
  (weights : list (list R)) : list R * list R * list R * list R :=
  let refl := map2 Rmult inc (select_all weights refl_i) in
  let trans := map2 Rmult inc (select_all weights trans_i) in
  let stuck := map2 Rmult inc (select_all weights stuck_i) in
  let absorb := map2 Rminus (map2 Rminus (map2 Rminus inc refl) trans) stuck in
  (refl, trans, stuck, absorb).

(** structcol/detector.py:519-554 [fresnel_pass_frac] from the angles.  NaN
    angles inside become pi/2 (line 535).  The calls of fresnel_transmission /
    fresnel_reflection raise ValueError past pi/2. *)
Definition avg2 (r : list R * list R) : list R := map2 Rplus (fst r) (snd r).
Definition theta_inside (n_before n_inside theta : R) : R :=
  match refraction theta n_before n_inside with Some t => t | None => PI / 2 end.
Definition fresnel_pass_frac (n_before : R) (n_inside : option R) (n_after : R)
  (theta_before : list R) : result (list R) :=
  let n_in := match n_inside with Some n => n | None => n_before end in
  let th_in := map (theta_inside n_before n_in) theta_before in
  bind (fresnel_transmission n_before n_in theta_before) (fun t1 =>
  bind (fresnel_transmission n_in n_after th_in) (fun t2 =>
  bind (fresnel_reflection n_in n_after th_in) (fun r1 =>
  bind (fresnel_reflection n_in n_before th_in) (fun r2 =>
  let fresnel_trans := map2 (fun a b => a * b / 4) (avg2 t1) (avg2 t2) in
  let fresnel_refl := map2 (fun a b => a * b / 4) (avg2 r1) (avg2 r2) in
  Ok (map2 (fun t r => t / (1 - r + EPS)) fresnel_trans fresnel_refl))))).

(** Is some entry NaN?  Then the sums over trajectories are NaN. *)
Definition is_none {A} (o : option A) : bool := match o with None => true | _ => false end.
Definition get_all (l : list num) : option (list R) :=
  if existsb is_none l then None else Some (somes l).

(** structcol/detector.py:875-956 [fresnel_correct_enter]: the pass fractions
    at the entrance.  [None]: some fraction is NaN (a film start direction
    that no incident ray refracts into), so every sum computed from the result
    is NaN.  The initial direction is event 1 of each trajectory. *)
Definition fresnel_correct_enter (n_medium : R) (n_front : option R) (n_tir : R) (b : boundary)
  (thickness : R) (trs : list traj) (fresnel_traj : bool) (kz0_rot : option (list R))
  : result (option (list R)) :=
  let ones := map (fun _ => 1%nat) trs in
  if fresnel_traj then Ok (Some (map (fun _ => 1) trs))
  else
    let init_dir : list num :=
      match b, kz0_rot with
      | film, Some d => map Some d
      | film, None =>
          map (fun th => option_map cos (refraction th n_tir n_medium))
              (get_angles ones film trs thickness None)
      | sphere, _ => map (fun _ => Some 1) trs
      end in
    match get_all init_dir with
    | None => Ok None
    | Some d =>
        bind (fresnel_pass_frac n_medium n_front n_tir
                (get_angles ones b trs thickness (Some d)))
             (fun fr => Ok (Some fr))
    end.

(** structcol/detector.py:959-1101 [fresnel_correct_exit]. *)
Record exit_split := mk_exit {
  x_refl_frac : num; x_trans_frac : num;
  x_refl_pass : list R; x_trans_pass : list R;
  x_refl_fresnel : list R; x_trans_fresnel : list R }.
Definition fresnel_correct_exit (n_tir n_medium : R) (n_front n_back : option R)
  (refl_i trans_i : list nat) (refl_w trans_w absorb_w : list R) (b : boundary)
  (thickness : R) (trs : list traj) (fresnel_traj : bool) : result exit_split :=
  bind (fresnel_pass_frac n_tir n_front n_medium
          (get_angles refl_i b trs thickness None)) (fun pf_refl =>
  bind (fresnel_pass_frac n_tir n_back n_medium
          (get_angles trans_i b trs thickness None)) (fun pf_trans =>
  let refl_pass := map2 Rmult refl_w pf_refl in
  let trans_pass := map2 Rmult trans_w pf_trans in
  let refl_fresnel := map2 Rminus refl_w refl_pass in
  let trans_fresnel := map2 Rminus trans_w trans_pass in
  let known := if fresnel_traj then INR (length refl_pass)
               else Rsum (map2 Rplus (map2 Rplus absorb_w refl_pass) trans_pass) in
  Ok (mk_exit (ndiv (Rsum refl_pass) known) (ndiv (Rsum trans_pass) known)
        refl_pass trans_pass refl_fresnel trans_fresnel))).

(** structcol/detector.py:588-600 [detect_correct] from the angles.  A NaN
    angle becomes inf and is not detected. *)
Definition detect1 (n_before n_after thresh theta w : R) : R :=
  match refraction theta n_before n_after with
  | None => 0
  | Some t => if Rltb thresh t then 0 else w
  end.
Definition detect_correct (angles weights : list R) (n_before n_after thresh : R) : list R :=
  map2 (detect1 n_before n_after thresh) angles weights.

(** structcol/detector.py:1173-1223 [detect_corrected_traj]:
    (inc_refl_detected, trans_detected, refl_detected, trans_det_frac,
    refl_det_frac). *)
Definition det_frac (detected pass : list R) : R :=
  max2 (Rsum detected) EPS / max2 (Rsum pass) EPS.
Definition detect_corrected_traj (inc : list R) (n_sample n_medium : R)
  (refl_i trans_i : list nat) (refl_pass trans_pass : list R) (trs : list traj)
  (b : boundary) (thickness detection_angle : R) (kz0_rot kz0_refl : option (list R))
  : list R * list R * list R * R * R :=
  let inc_refl := map (fun x => 1 - x) inc in
  let inc_refl_detected :=
    match kz0_rot, kz0_refl with
    | Some _, Some kr =>
        map2 (fun k w => if Rltb (acos k) (PI - detection_angle) then 0 else w) kr inc_refl
    | _, _ =>
        detect_correct
          (get_angles (map (fun _ => 1%nat) trs) b trs thickness
             (Some (map (fun t => vz (nth 0 (t_dir t) vzero)) trs)))
          inc_refl n_medium n_medium detection_angle
    end in
  let trans_detected :=
    detect_correct (get_angles trans_i b trs thickness None) trans_pass
      n_sample n_medium detection_angle in
  let refl_detected :=
    detect_correct (get_angles refl_i b trs thickness None) refl_pass
      n_sample n_medium detection_angle in
  (inc_refl_detected, trans_detected, refl_detected,
   det_frac trans_detected trans_pass, det_frac refl_detected refl_pass).

(** structcol/detector.py:1226-1333 [distribute_ambig_traj_weights]:
    (reflectance, transmittance, refl_per_traj, trans_per_traj), or NaN when a
    fraction it uses is NaN.  The sphere uses the fractions only with
    [detector]. *)
Definition distribute_ambig_traj_weights (refl_fresnel trans_fresnel : list R)
  (refl_frac trans_frac : num) (refl_det_frac trans_det_frac : R)
  (refl_detected trans_detected stuck inc_refl_detected : list R)
  (b : boundary) (detector : bool) : option (R * R * list R * list R) :=
  let ntraj := INR (length refl_fresnel) in
  let extra : option (list R * list R) :=
    match b with
    | film =>
        match refl_frac, trans_frac with
        | Some rf, Some tf =>
            Some (map3 (fun r t s => r * rf + t * tf + s * (1 / 2)) refl_fresnel trans_fresnel stuck,
                  map3 (fun r t s => t * rf + r * tf + s * (1 / 2)) refl_fresnel trans_fresnel stuck)
        | _, _ => None
        end
    | sphere =>
        Some (map3 (fun r t s => 1 / 2 * (r + t + s)) refl_fresnel trans_fresnel stuck,
              map3 (fun r t s => 1 / 2 * (t + r + s)) refl_fresnel trans_fresnel stuck)
    end in
  match extra with
  | None => None
  | Some (extra_refl0, extra_trans) =>
      let extra_refl :=
        if detector then
          match refl_frac with
          | Some rf => Some (map (fun r => r * rf) refl_fresnel)
          | None => None
          end
        else Some extra_refl0 in
      match extra_refl with
      | None => None
      | Some extra_refl =>
          let inc := if detector then map (fun _ => 0) inc_refl_detected else inc_refl_detected in
          let trans_w := map2 (fun d e => d + e * trans_det_frac) trans_detected extra_trans in
          let refl_w := map3 (fun d e i => d + e * refl_det_frac + i) refl_detected extra_refl inc in
          let refl_per := map (fun x => x / ntraj) refl_w in
          let trans_per := map (fun x => x / ntraj) trans_w in
          Some (Rsum refl_per, Rsum trans_per, refl_per, trans_per)
      end
  end.

(* ------------------------------------------------------------------ *)
(** * Goniometer *)

(** structcol/detector.py:1579-1603 [select_tir_traj] on the column of one
    trajectory with TIR event [ev], following the assignments: zeros, preset
    the TIR event, copy row 0, then for i = 1.. negate where the previous
    output is non-zero and fill the remaining zeros from the input. *)
Definition preset (col : list R) (ev : nat) : list R :=
  map (fun p => let '(i, x) := p in if Nat.eqb (S i) ev then x else 0)
      (combine (seq 0 (length col)) col).
Fixpoint tir_loop (prev : R) (col out : list R) : list R :=
  match col, out with
  | x :: col', o :: out' =>
      let o1 := if Reqb prev 0 then o else - x in
      let o2 := if Reqb o1 0 then x else o1 in
      o2 :: tir_loop o2 col' out'
  | _, _ => []
  end.
Definition select_tir_traj (col : list R) (ev : nat) : list R :=
  match col, preset col ev with
  | x0 :: col', _ :: out' => x0 :: tir_loop x0 col' out'
  | _, _ => []
  end.

(** structcol/detector.py:1606-1620 [shift_traj_tir], one trajectory. *)
Definition set_z (v : vec) (z : R) : vec := (vx v, vy v, z).
Definition shift_traj_tir (t : traj) (tir : nat) : traj :=
  mk_traj (map2 set_z (t_pos t) (select_tir_traj (map vz (t_pos t)) tir))
          (map2 set_z (t_dir t) (select_tir_traj (map vz (t_dir t)) tir))
          (t_w t).

(** structcol/detector.py:1383-1416 [calc_refracted_direction], one
    trajectory: refracted direction and the point on the plane z = 0.  NaN when
    kz = 0 (division) or when the direction is along the normal (the rotation
    axis is the normalised zero vector) or beyond the critical angle. *)
Definition calc_refracted_direction (k p : vec) (n1 n2 : R) : option (vec * vec) :=
  if Reqb (vz k) 0 then None
  else
    let plane := (- vz p / vz k * vx k + vx p, - vz p / vz k * vy k + vy p, 0) in
    let kz := if Rltb 0 (vz k) then - vz k else vz k in
    match normalize1 (- vy k, vx k, 0) with
    | None => None
    | Some axis =>
        let theta_1 := acos (Rabs kz) in
        match refraction theta_1 n1 n2 with
        | None => None
        | Some theta_2 =>
            Some (rotate_refract plane axis (vx k, vy k, kz) (- (theta_2 - theta_1)), plane)
        end
    end.

(** structcol/detector.py:1488-1554 [calc_indices_detected], one trajectory:
    the event number if it is detected, else 0. *)
Definition calc_index_detected (ev : nat) (t : traj) (det_theta det_len det_dist n_sample n_medium : R)
  : nat :=
  match calc_refracted_direction (vselect (t_dir t) ev) (vselect (tl (t_pos t)) ev) n_sample n_medium with
  | None => 0%nat
  | Some (k, q) =>
      let det_rad := sqrt (det_dist ^ 2 + (det_len / 2) ^ 2) in
      let delta_x := det_len * cos det_theta in
      let x_center := det_dist * sin det_theta in
      let a := vx k ^ 2 + vy k ^ 2 + vz k ^ 2 in
      let b := 2 * (vx k * vx q + vy k * vy q + vz k * vz q) in
      let c := vx q ^ 2 + vy q ^ 2 + vz q ^ 2 - det_rad ^ 2 in
      let disc := b ^ 2 - 4 * a * c in
      if Rltb disc 0 then 0%nat
      else
        let tt := if Rltb det_theta (PI / 2) then (- b + sqrt disc) / (2 * a)
                  else (- b - sqrt disc) / (2 * a) in
        let x_int := vx q + tt * vx k in
        let y_int := vy q + tt * vy k in
        let z_int := vz q + tt * vz k in
        if (Rltb x_int (x_center + delta_x / 2) && Rltb (x_center - delta_x / 2) x_int)
           && (Rltb y_int (0 + det_len / 2) && Rltb (0 - det_len / 2) y_int)
           && Rltb z_int 0
        then ev else 0%nat
  end.

(** structcol/detector.py:2219-2261 [normalize_refl_goniometer]. *)
Definition normalize_refl_goniometer (refl det_dist det_len det_theta : R) : R :=
  (2 * PI * det_dist ^ 2) / det_len ^ 2 * cos det_theta * refl.

(** structcol/detector.py:2263-2316 [calc_haze]. *)
Definition calc_haze (trs : list traj) (trans_per_traj : list R) (transmittance : R)
  (trans_i : list nat) (cutoff : R) : num :=
  let angles := map2 film_exit_angle trs trans_i in
  let forward := Rsum (map2 (fun th w => if Rltb th cutoff then w else 0) angles trans_per_traj) in
  ndiv (transmittance - forward) transmittance.

(* ------------------------------------------------------------------ *)
(** * calc_refl_trans *)

(** Arguments of [calc_refl_trans] (structcol/detector.py:1623-1652) that
    affect its value, except the trajectories, fresnel_traj and call_depth.
    [p_gonio] is (det_theta, det_len, det_dist) when detector=True. *)
Record params := mk_params {
  p_thickness : R; p_nmedium : R; p_nsample : R; p_boundary : boundary; p_zlow : R;
  p_detection : R; p_nfront : option R; p_nback : option R;
  p_run : bool; p_maxdepth : nat; p_maxstuck : R; p_muabs : R;
  p_gonio : option (R * R * R);
  p_kz0rot : option (list R); p_kz0refl : option (list R);
  p_fine : R; p_nparticle : option R; p_nmatrix : option R }.

(** structcol/detector.py:1803-1816 the index used for total internal
    reflection.  (n_sample has been replaced by its absolute value, line 629.) *)
Definition choose_n_tir (P : params) : R :=
  let ns := Rabs (p_nsample P) in
  match p_nparticle P, p_nmatrix P with
  | Some np, Some nm =>
      if Rltb np nm then p_fine P * nm + (1 - p_fine P) * ns
      else p_fine P * np + (1 - p_fine P) * ns
  | _, _ => ns
  end.

(** Everything computed before the decision to re-run (lines 1788-1886). *)
Record pass := mk_pass {
  q_trs : list traj;                 (* trajectories after shift_traj_tir *)
  q_refl_i : list nat; q_trans_i : list nat; q_tir_i : list nat;
  q_stuck : list R; q_absorb : list R; q_exit : exit_split;
  q_inc_refl_det : list R; q_trans_det : list R; q_refl_det : list R;
  q_trans_det_frac : R; q_refl_det_frac : R; q_total_stuck : R }.

Definition i_refl (x : nat * nat * nat * nat) : nat := let '(r, _, _, _) := x in r.
Definition i_trans (x : nat * nat * nat * nat) : nat := let '(_, t, _, _) := x in t.
Definition i_stuck (x : nat * nat * nat * nat) : nat := let '(_, _, s, _) := x in s.
Definition i_tir (x : nat * nat * nat * nat) : nat := let '(_, _, _, t) := x in t.

(** structcol/detector.py:1782-1886.  [Ok None]: NaN from the entrance. *)
Definition first_pass (P : params) (fresnel_traj : bool) (trs0 : list traj)
  : result (option pass) :=
  match p_kz0rot P, p_kz0refl P with
  | None, Some _ | Some _, None => Err ValueError
  | _, _ =>
    let n_sample := Rabs (p_nsample P) in
    let n_tir := choose_n_tir P in
    let ev := map (event_indices n_tir (p_nmedium P) (p_thickness P) (p_zlow P) (p_boundary P)) trs0 in
    let trans_i := map i_trans ev in
    let stuck_i := map i_stuck ev in
    let tir_i := map i_tir ev in
    let trs := match p_gonio P with
               | None => trs0
               | Some _ => map2 shift_traj_tir trs0 tir_i end in
    let refl_i := match p_gonio P with
                  | None => map i_refl ev
                  | Some (th, len, dist) =>
                      map2 (fun i t => calc_index_detected i t th len dist n_sample (p_nmedium P))
                           (map i_refl ev) trs
                  end in
    bind (fresnel_correct_enter (p_nmedium P) (p_nfront P) n_tir (p_boundary P)
            (p_thickness P) trs fresnel_traj (p_kz0rot P)) (fun inc_o =>
    match inc_o with
    | None => Ok None
    | Some inc =>
      let '(refl_w, trans_w, stuck_w, absorb_w) :=
        calc_outcome_weights inc refl_i trans_i stuck_i (map t_w trs) in
      bind (fresnel_correct_exit n_tir (p_nmedium P) (p_nfront P) (p_nback P) refl_i trans_i
              refl_w trans_w absorb_w (p_boundary P) (p_thickness P) trs fresnel_traj) (fun x =>
      let '(inc_det, trans_det, refl_det, tdf, rdf) :=
        detect_corrected_traj inc n_sample (p_nmedium P) refl_i trans_i
          (x_refl_pass x) (x_trans_pass x) trs (p_boundary P) (p_thickness P)
          (p_detection P) (p_kz0rot P) (p_kz0refl P) in
      let total_stuck :=
        Rsum (map2 Rplus (map2 Rplus (x_refl_fresnel x) (x_trans_fresnel x)) stuck_w)
        / INR (length trs0) in
      Ok (Some (mk_pass trs refl_i trans_i tir_i stuck_w absorb_w x inc_det trans_det refl_det
                  tdf rdf total_stuck)))
    end)
  end.

(** The values of the return tuple (lines 1926-1948) that the model carries,
    plus the number of nested calls made (bookkeeping of the model, not
    returned by the code). *)
Record outcome := mk_outcome {
  o_refl_i : list nat; o_trans_i : list nat;
  o_inc_refl : list R; o_refl_pass : list R; o_trans_pass : list R;
  o_refl_per : list R; o_trans_per : list R;
  o_trans_frac : num; o_refl_frac : num;
  o_refl_fresnel : list R; o_trans_fresnel : list R;
  o_refl : R; o_trans : R; o_generations : nat }.

Definition make_outcome (q : pass) (r t : R) (rp tp : list R) (g : nat) : outcome :=
  let n := INR (length (q_trs q)) in
  let per := map (fun x => x / n) in
  let x := q_exit q in
  mk_outcome (q_refl_i q) (q_trans_i q) (per (q_inc_refl_det q))
    (per (x_refl_pass x)) (per (x_trans_pass x)) rp tp (x_trans_frac x) (x_refl_frac x)
    (per (x_refl_fresnel x)) (per (x_trans_fresnel x)) r t g.

(** structcol/detector.py:2046-2149 the new trajectory [i] of a re-run, from
    the old one, its exit indices and the weight left in it.  Note that
    nevents is the number of positions of the old trajectories (line 2054), so
    each generation has one event more.  [angs i n], [steps i n]: the sampled
    angles and steps (mc.sample_angles, mc.sample_step are not modelled here;
    mu_scat, mu_abs and p are given). *)
Definition rerun_traj (radius mu_abs : R) (angs : nat -> nat -> R * R) (steps : nat -> nat -> R)
  (i : nat) (t : traj) (idx : nat) (w : R) : result traj :=
  let nev := length (t_pos t) in
  if Nat.ltb (length (t_dir t)) idx then Err IndexError
  else
    let '(p0, p1) := inf_to_large (vselect (removelast (t_pos t)) idx)
                                  (vselect (tl (t_pos t)) idx) radius in
    let sel_r := if Nat.eqb idx 0 then 0 else radius in
    let inter0 := find_vec_sphere_intersect (vx p0, vy p0, vz p0 - sel_r)
                                            (vx p1, vy p1, vz p1 - sel_r) radius in
    let inter := (vx inter0, vy inter0, vz inter0 + sel_r) in
    let normal := (vx inter / radius, vy inter / radius, (vz inter - sel_r) / radius) in
    let k_refl := rotate_reflect (vselect (t_dir t) idx) normal in
    let step := map (steps i) (seq 0 nev) in
    let weight := absorb mu_abs (repeat w nev) step in
    bind (scatter (k_refl :: repeat vzero (nev - 1)) (map (angs i) (seq 0 nev))) (fun dirs =>
    Ok (mk_traj (move (inter :: repeat vzero nev) dirs step) dirs weight)).

Fixpoint rerun_all (radius mu_abs : R) (angs : nat -> nat -> R * R) (steps : nat -> nat -> R)
  (i : nat) (l : list (traj * nat * R)) : result (list traj) :=
  match l with
  | [] => Ok []
  | (t, idx, w) :: l' =>
      bind (rerun_traj radius mu_abs angs steps i t idx w) (fun t' =>
      bind (rerun_all radius mu_abs angs steps (S i) l') (fun ts => Ok (t' :: ts)))
  end.

(** structcol/detector.py:2152-2171 the arguments of the nested call: defaults
    everywhere except the ones passed explicitly.  max_call_depth,
    detection_angle, n_front, n_back, z_low, roughness and the goniometer are
    not forwarded. *)
Definition nested_params (P : params) : params :=
  mk_params (p_thickness P) (p_nmedium P) (Rabs (p_nsample P)) (p_boundary P) 0
    (PI / 2) None None true 20 (p_maxstuck P) (p_muabs P) None None None 0 None None.

(** structcol/detector.py:1623-1958 [calc_refl_trans] with the recursion
    through [run_sphere_fresnel_traj] (1962-2187).  [angs d i n], [steps d i n]
    are the random draws of the re-run at depth d.  [Ok None] means that
    reflectance and transmittance are NaN.  [fuel] bounds the recursion;
    running out is an error that is proved impossible for fuel >= 22. *)
Fixpoint calc_refl_trans (fuel : nat) (angs : nat -> nat -> nat -> R * R)
  (steps : nat -> nat -> nat -> R) (P : params) (fresnel_traj : bool) (call_depth : nat)
  (trs : list traj) : result (option outcome) :=
  match fuel with
  | O => Err OutOfFuel
  | S fuel' =>
    bind (first_pass P fresnel_traj trs) (fun qo =>
    match qo with
    | None => Ok None
    | Some q =>
      let x := q_exit q in
      let ntraj := INR (length trs) in
      if p_run P && Nat.ltb call_depth (p_maxdepth P) && Rltb (p_maxstuck P) (q_total_stuck q)
      then
        let refl_nf := map2 (fun a b => (a + b) / ntraj) (q_refl_det q) (q_inc_refl_det q) in
        let trans_nf := map (fun a => a / ntraj) (q_trans_det q) in
        let weights := map2 Rplus (map2 Rplus (x_refl_fresnel x) (x_trans_fresnel x)) (q_stuck q) in
        let idx := map2 Nat.add (map2 Nat.add (q_refl_i q) (q_trans_i q)) (q_tir_i q) in
        bind (rerun_all (p_thickness P / 2) (p_muabs P) (angs call_depth) (steps call_depth) 0
                (combine (combine (q_trs q) idx) weights)) (fun trs' =>
        bind (calc_refl_trans fuel' angs steps (nested_params P) true (S call_depth) trs') (fun oo =>
        match oo with
        | None => Ok None
        | Some o =>
            Ok (Some (make_outcome q (o_refl o + Rsum refl_nf) (o_trans o + Rsum trans_nf)
                        (map2 Rplus (o_refl_per o) refl_nf) (map2 Rplus (o_trans_per o) trans_nf)
                        (S (o_generations o))))
        end))
      else
        match distribute_ambig_traj_weights (x_refl_fresnel x) (x_trans_fresnel x)
                (x_refl_frac x) (x_trans_frac x) (q_refl_det_frac q) (q_trans_det_frac q)
                (q_refl_det q) (q_trans_det q) (q_stuck q) (q_inc_refl_det q)
                (p_boundary P) (match p_gonio P with Some _ => true | None => false end) with
        | None => Ok None
        | Some (r, t, rp, tp) => Ok (Some (make_outcome q r t rp tp 0))
        end
    end)
  end.
