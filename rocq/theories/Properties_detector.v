(** C22-C44, C64-C67: reflectance and transmittance from trajectories
    (structcol/detector.py).  Vocabulary in Spec.v and Spec_detector.v.
    Proofs in L_exits.v ... L_outcomes L_sphere_exits.v. *)
From Coq Require Import Lra Lia.
From Verif Require Import Num Spec Spec_detector M_init M_montecarlo M_detector
  L_exits L_weights L_conserve L_geometry L_gonio L_rerun L_outcomes L_sphere_exits L_window.
Open Scope R_scope.

(** C22.  [in_slab zl d z m]: the point is in slab m of the stack of mirror
    images of the film (m = 0).  In even slabs leaving upwards is
    transmission, in odd (mirrored) ones it is reflection. *)
Theorem C22_film_exits : forall ns nm th zl t ps ng ti i m,
  wf_len t -> dirs_ok t -> zl < th -> 0 < nm <= ns ->
  find_valid_exits ns nm th zl film t = (ps, ng, ti) -> (i < length (t_dir t))%nat ->
  let z0 := vz (nth i (t_pos t) vzero) in
  let z1 := vz (nth (S i) (t_pos t) vzero) in
  let kz := vz (nth i (t_dir t) vzero) in
  let d := th - zl in
  in_slab zl d z0 m ->
  let up := zl + (IZR m + 1) * d <= z1 in
  let down := z1 < zl + IZR m * d in
  (nth i ps false = true
     <-> steep ns nm kz /\ ((Z.even m = true /\ up) \/ (Z.odd m = true /\ down)))
  /\ (nth i ng false = true
     <-> steep ns nm kz /\ ((Z.even m = true /\ down) \/ (Z.odd m = true /\ up)))
  /\ (nth i ti false = true
     <-> ~ steep ns nm kz /\ ((Z.even m = true /\ down) \/ (Z.odd m = true /\ up))).
Proof. exact film_exit_characterised. Qed.
Print Assumptions C22_film_exits.

Theorem C22_never_both : forall ns nm th zl b t ps ng ti i,
  wf_len t -> find_valid_exits ns nm th zl b t = (ps, ng, ti) ->
  nth i ng false && nth i ps false = false.
Proof. exact exits_exclusive. Qed.
Print Assumptions C22_never_both.

(** C23 *)
Theorem C23_one_outcome : forall neg pos tir,
  length neg = length pos -> (0 < length neg)%nat ->
  (forall i, nth i neg false && nth i pos false = false) ->
  exists r t s,
    find_event_indices neg pos tir = (r, t, s, argmax_padded tir)
    /\ one_outcome (length neg) pos neg r t s.
Proof. exact event_indices_cases. Qed.
Print Assumptions C23_one_outcome.

Theorem C23_trajectory_outcome : forall ns nm th zl b t ps ng ti,
  wf_len t -> find_valid_exits ns nm th zl b t = (ps, ng, ti) ->
  exists r tt s,
    event_indices ns nm th zl b t = (r, tt, s, argmax_padded ti)
    /\ one_outcome (length (t_dir t)) ps ng r tt s.
Proof. exact trajectory_outcome. Qed.
Print Assumptions C23_trajectory_outcome.

(** C24 *)
Theorem C24_first_exit_physical : forall ns nm th t i,
  wf_len t -> dirs_ok t -> 0 < th -> 0 < nm <= ns -> (i < length (t_dir t))%nat ->
  (forall j, (j <= i)%nat -> 0 <= vz (nth j (t_pos t) vzero) < th) ->
  steep ns nm (vz (nth i (t_dir t) vzero)) ->
  let z1 := vz (nth (S i) (t_pos t) vzero) in
  (z1 < 0 -> exists ti, event_indices ns nm th 0 film t = (S i, 0%nat, 0%nat, ti))
  /\ (th <= z1 -> exists ti, event_indices ns nm th 0 film t = (0%nat, S i, 0%nat, ti)).
Proof. exact first_exit_physical. Qed.
Print Assumptions C24_first_exit_physical.

(** C25.  False as stated: the code divides by (thickness - z_low), so keeping
    the thickness changes the slab.  True when the "thickness" argument is
    shifted too, i.e. it is really the z coordinate of the back face. *)
Theorem C25_z_low_partial : forall ns nm th zl s t,
  event_indices ns nm (th + s) (zl + s) film (shift_z s t) = event_indices ns nm th zl film t.
Proof. exact shift_both. Qed.
Print Assumptions C25_z_low_partial.

Theorem C25_z_low_refuted :
  exists ns nm th s t,
    0 < nm <= ns /\ 0 < th /\ wf_len t /\ dirs_ok t
    /\ event_indices ns nm th s film (shift_z s t) <> event_indices ns nm th 0 film t.
Proof. exact z_low_refuted_l. Qed.
Print Assumptions C25_z_low_refuted.

(** C26.  False, for every trajectory: with a denser medium nothing ever
    leaves a film (arcsin is NaN and the comparison false). *)
Theorem C26_denser_medium_refuted : forall ns nm th zl t,
  0 < ns -> ns < nm -> wf_len t ->
  exists ti, event_indices ns nm th zl film t = (0%nat, 0%nat, length (t_dir t), ti).
Proof. exact dense_no_exit. Qed.
Print Assumptions C26_denser_medium_refuted.

(** C27 *)
Theorem C27_outcome_weights : forall ns nm th zl b inc trs rw tw sw aw,
  length inc = length trs -> Forall fraction inc ->
  Forall (fun t => wf_len t /\ Forall fraction (t_w t)) trs ->
  let ev := map (event_indices ns nm th zl b) trs in
  calc_outcome_weights inc (map i_refl ev) (map i_trans ev) (map i_stuck ev) (map t_w trs)
    = (rw, tw, sw, aw) ->
  forall i, (i < length trs)%nat ->
    let r := nth i rw 0 in let t := nth i tw 0 in let s := nth i sw 0 in let a := nth i aw 0 in
    0 <= r /\ 0 <= t /\ 0 <= s /\ 0 <= a
    /\ r + t + s + a = nth i inc 0
    /\ (r = 0 \/ t = 0) /\ (r = 0 \/ s = 0) /\ (t = 0 \/ s = 0)
    /\ (Forall (fun w => w = 1) (t_w (nth i trs (mk_traj [] [] []))) -> a = 0).
Proof. exact outcome_weights_spec. Qed.
Print Assumptions C27_outcome_weights.

(** C28: one angle after the other; [fresnel_pass_frac] raises exactly past
    pi/2. *)
Theorem C28_pass_fraction : forall nb ni na ths l,
  0 < nb -> (forall n, ni = Some n -> 0 < n) -> 0 < na -> Forall (fun t => 0 <= t) ths ->
  fresnel_pass_frac nb ni na ths = Ok l ->
  length l = length ths
  /\ forall i, (i < length ths)%nat ->
       0 <= nth i l 0 < 1
       /\ (na <= nb * sin (nth i ths 0) -> nth i l 0 = 0).
Proof.
  intros nb ni na ths l Hb Hi Ha Ht H. apply pass_frac_inv in H as [-> Hle].
  split; [apply map_length|]. intros i Hlt.
  rewrite Forall_forall in Ht, Hle.
  assert (R : 0 <= nth i ths 0 <= PI / 2) by (split; [apply Ht|apply Hle]; now apply nth_In).
  rewrite (L_num.nth_map_in _ _ _ 0) by exact Hlt.
  split; [now apply pf1_bounds|]. intros Htir. now apply pf1_tir.
Qed.
Print Assumptions C28_pass_fraction.

Theorem C28_raises_past_right_angle : forall nb ni na ths,
  (exists l, fresnel_pass_frac nb ni na ths = Ok l) <-> Forall (fun t => t <= PI / 2) ths.
Proof.
  intros nb ni na ths. split.
  - intros [l H]. now apply pass_frac_inv in H.
  - intros H. exists (map (pf1 nb ni na) ths). now apply pass_frac_ok.
Qed.
Print Assumptions C28_raises_past_right_angle.

(** C29 *)
Theorem C29_exit_split : forall nt nm nf nb ri ti rw tw aw b th trs ft x,
  0 < nt -> 0 < nm -> (forall m, nf = Some m -> 0 < m) -> (forall m, nb = Some m -> 0 < m) ->
  length ri = length trs -> length ti = length trs -> length rw = length trs ->
  length tw = length trs -> length aw = length trs ->
  Forall (fun w => 0 <= w) rw -> Forall (fun w => 0 <= w) tw -> Forall (fun w => 0 <= w) aw ->
  (ft = true -> forall i, nth i rw 0 + nth i tw 0 <= 1) ->
  fresnel_correct_exit nt nm nf nb ri ti rw tw aw b th trs ft = Ok x ->
  (forall i, (i < length trs)%nat ->
     0 <= nth i (x_refl_pass x) 0 <= nth i rw 0 /\ 0 <= nth i (x_trans_pass x) 0 <= nth i tw 0
     /\ 0 <= nth i (x_refl_fresnel x) 0 /\ 0 <= nth i (x_trans_fresnel x) 0
     /\ nth i (x_refl_pass x) 0 + nth i (x_refl_fresnel x) 0 = nth i rw 0
     /\ nth i (x_trans_pass x) 0 + nth i (x_trans_fresnel x) 0 = nth i tw 0)
  /\ (forall u v, x_refl_frac x = Some u -> x_trans_frac x = Some v -> 0 <= u /\ 0 <= v /\ u + v <= 1).
Proof. exact exit_split_spec. Qed.
Print Assumptions C29_exit_split.

Theorem C29_film_never_raises : forall nt nm nf nb ri ti rw tw aw th trs ft,
  exists x, fresnel_correct_exit nt nm nf nb ri ti rw tw aw film th trs ft = Ok x.
Proof. exact film_exit_never_raises. Qed.
Print Assumptions C29_film_never_raises.

(** C30 *)
Theorem C30_keeps_or_drops : forall angles weights nb na thresh i,
  length angles = length weights -> (i < length weights)%nat ->
  let w := nth i weights 0 in let o := nth i (detect_correct angles weights nb na thresh) 0 in
  (o = w \/ o = 0)
  /\ (w <> 0 -> (o = w <-> exists t, refraction (nth i angles 0) nb na = Some t /\ t <= thresh)).
Proof.
  intros angles weights nb na thresh i Hl Hi w o. unfold o, detect_correct.
  assert (E : nth i (map2 (detect1 nb na thresh) angles weights) 0
              = detect1 nb na thresh (nth i angles 0) (nth i weights 0)).
  { clear w o. revert weights i Hl Hi. induction angles as [|a l IH]; intros [|x m] [|i] Hl Hi; cbn in *; try lia.
    - reflexivity.
    - apply IH; lia. }
  rewrite E. split; [apply detect1_cases|]. intros Hw. now apply detect1_spec.
Qed.
Print Assumptions C30_keeps_or_drops.

Theorem C30_monotone : forall nb na th1 th2 angles weights,
  Forall (fun w => 0 <= w) weights -> th1 <= th2 ->
  total (detect_correct angles weights nb na th1) <= total (detect_correct angles weights nb na th2).
Proof.
  intros nb na th1 th2 angles weights Hw Hth. unfold detect_correct.
  revert weights Hw. induction angles as [|a l IH]; intros [|w m] Hw; cbn; try lra.
  inversion_clear Hw. apply Rplus_le_compat; [now apply detect1_mono|now apply IH].
Qed.
Print Assumptions C30_monotone.

Theorem C30_full_aperture : forall nb na angles weights,
  length angles = length weights ->
  Forall (fun a => refraction a nb na <> None) angles ->
  detect_correct angles weights nb na (PI / 2) = weights.
Proof.
  intros nb na angles weights Hl Ha. unfold detect_correct.
  revert weights Hl. induction Ha as [|a l Hh Ht IH]; intros [|w m] Hl; cbn in *; try lia; [reflexivity|].
  rewrite detect1_full by exact Hh. rewrite IH by lia. reflexivity.
Qed.
Print Assumptions C30_full_aperture.

(** C31.  [flat 1]: all weights are 1, as for a non-absorbing sample. *)
Theorem C31_film_energy : forall fuel angs steps P d n T o,
  (0 < n)%nat -> valid_params P n -> plain P -> full_detection P ->
  p_boundary P = film -> p_run P = false -> p_muabs P = 0 ->
  (forall i, (i < n)%nat -> wf_len (T i) /\ dirs_ok (T i) /\ flat 1 (T i)) ->
  calc_refl_trans fuel angs steps P false d (map T (seq 0 n)) = Ok (Some o) ->
  o_refl o + o_trans o = 1.
Proof. exact film_conserves. Qed.
Print Assumptions C31_film_energy.

(** The same with fine surface roughness, as long as the index used for total
    internal reflection is not below the sample's. *)
Theorem C31_film_energy_rough : forall fuel angs steps P d n T o,
  (0 < n)%nat -> valid_params P n -> p_gonio P = None -> p_kz0rot P = None ->
  Rabs (p_nsample P) <= choose_n_tir P -> full_detection P ->
  p_boundary P = film -> p_run P = false -> p_muabs P = 0 ->
  (forall i, (i < n)%nat -> wf_len (T i) /\ dirs_ok (T i) /\ flat 1 (T i)) ->
  calc_refl_trans fuel angs steps P false d (map T (seq 0 n)) = Ok (Some o) ->
  o_refl o + o_trans o = 1.
Proof. exact film_conserves_rough. Qed.
Print Assumptions C31_film_energy_rough.

(** C32 (and the absorbing part of C34): all parameters, with and without
    re-runs; for spheres without the goniometer (see C64). *)
Theorem C32_fractions : forall fuel angs steps P d n T o,
  (0 < n)%nat -> valid_params P n -> (p_boundary P = film \/ p_gonio P = None) ->
  0 <= p_muabs P -> (forall e i k, 0 <= steps e i k) ->
  (forall i, (i < n)%nat -> col_ok 1 (T i)) ->
  calc_refl_trans fuel angs steps P false d (map T (seq 0 n)) = Ok (Some o) ->
  0 <= o_refl o /\ 0 <= o_trans o /\ o_refl o + o_trans o <= 1
  /\ o_refl o = total (o_refl_per o) /\ o_trans o = total (o_trans_per o)
  /\ length (o_refl_per o) = n /\ length (o_trans_per o) = n
  /\ (forall i, (i < n)%nat -> 0 <= nth i (o_refl_per o) 0 /\ 0 <= nth i (o_trans_per o) 0
        /\ nth i (o_refl_per o) 0 + nth i (o_trans_per o) 0 <= 1 / INR n).
Proof. exact fractions_hold. Qed.
Print Assumptions C32_fractions.

(** C33.  False: a non-absorbing film that no trajectory leaves within the
    simulated events always gives NaN (0/0), and so does any film in a denser
    medium.  What holds: a film never raises, and gives numbers as soon as one
    trajectory leaves. *)
Theorem C33_numbers_refuted : forall fuel angs steps P d n T,
  valid_params P n -> p_boundary P = film -> p_run P = false -> p_gonio P = None ->
  (p_kz0rot P = None <-> p_kz0refl P = None) -> p_zlow P < p_thickness P ->
  (forall i, (i < n)%nat -> wf_len (T i) /\ Forall (fun w => w = 1) (t_w (T i))
     /\ forall p, In p (t_pos (T i)) -> p_zlow P <= vz p < p_thickness P) ->
  calc_refl_trans (S fuel) angs steps P false d (map T (seq 0 n)) = Ok None.
Proof.
  intros fuel angs steps P d n T Hv Hb Hr Hgo Hk Hz HT.
  apply film_all_stuck_nan; auto; [now apply valid_good|].
  intros i Hi. destruct (HT i Hi) as (Hw & Hone & Hin). repeat split; try assumption; try apply Hw.
  now apply film_inside_stuck.
Qed.
Print Assumptions C33_numbers_refuted.

Theorem C33_denser_medium_nan : forall fuel angs steps P d n T,
  valid_params P n -> plain P -> p_boundary P = film -> p_run P = false ->
  Rabs (p_nsample P) < p_nmedium P ->
  (forall i, (i < n)%nat -> wf_len (T i) /\ Forall (fun w => w = 1) (t_w (T i))) ->
  calc_refl_trans (S fuel) angs steps P false d (map T (seq 0 n)) = Ok None.
Proof.
  intros fuel angs steps P d n T Hv Hp Hb Hr Hlt HT.
  pose proof (plain_tir P Hp) as Et. destruct Hp as (Hgo & Hk1 & Hk2 & _).
  apply film_all_stuck_nan; auto.
  - now apply valid_good.
  - rewrite Hk1, Hk2. tauto.
  - intros i Hi. destruct (HT i Hi) as (Hw & Hone). repeat split; try assumption; try apply Hw.
    apply dense_no_exit; [|rewrite Et; exact Hlt|exact Hw].
    destruct (valid_good P n Hv) as (_ & _ & H & _). exact H.
Qed.
Print Assumptions C33_denser_medium_nan.

Theorem C33_film_never_raises : forall fuel angs steps P ft d trs,
  p_boundary P = film -> (p_kz0rot P = None <-> p_kz0refl P = None) -> p_run P = false ->
  exists oo, calc_refl_trans (S fuel) angs steps P ft d trs = Ok oo.
Proof. exact film_never_raises. Qed.
Print Assumptions C33_film_never_raises.

Theorem C33_film_number_partial : forall fuel angs steps P d n T j,
  valid_params P n -> plain P -> p_boundary P = film -> p_run P = false ->
  (forall m, p_nfront P = Some m -> p_nmedium P <= m) -> (forall m, p_nback P = Some m -> p_nmedium P <= m) ->
  (forall i, (i < n)%nat -> wf_len (T i) /\ dirs_ok (T i) /\ Forall fraction (t_w (T i))
     /\ steep (Rabs (p_nsample P)) (p_nmedium P) (vz (nth 0 (t_dir (T i)) vzero))) ->
  (j < n)%nat ->
  (exists r t s ti, event_indices (Rabs (p_nsample P)) (p_nmedium P) (p_thickness P) (p_zlow P) film (T j)
     = (r, t, s, ti) /\ (0 < r + t)%nat /\ 0 < nth (r + t - 1) (t_w (T j)) 0) ->
  exists o, calc_refl_trans (S fuel) angs steps P false d (map T (seq 0 n)) = Ok (Some o).
Proof.
  intros fuel angs steps P d n T j Hv Hp Hb Hr Hf Hba HT Hj He.
  pose proof (plain_tir P Hp) as Et. destruct Hp as (Hgo & Hk1 & Hk2 & _). rewrite <- Et in *.
  eapply film_number; eauto. now apply valid_good.
Qed.
Print Assumptions C33_film_number_partial.

(** For spheres it holds: numbers, whatever the draws. *)
Theorem C33_sphere_numbers : forall fuel angs steps P d n T,
  (21 <= fuel)%nat -> valid_params P n -> plain P -> p_boundary P = sphere -> 0 < p_thickness P ->
  d = 0%nat ->
  (forall i, (i < n)%nat -> wf_len (T i) /\ in_sphere (p_thickness P / 2) (nth 0 (t_pos (T i)) vzero)
     /\ fst (sphere_entry_angle (p_thickness P) (T i) 1) <= PI / 2) ->
  exists o, calc_refl_trans fuel angs steps P false d (map T (seq 0 n)) = Ok (Some o).
Proof. exact sphere_numbers. Qed.
Print Assumptions C33_sphere_numbers.

(** C34: [angs], [steps] are all the random draws of the re-runs. *)
Theorem C34_sphere_energy : forall fuel angs steps P d n T o,
  (0 < n)%nat -> valid_params P n -> plain P -> full_detection P ->
  p_boundary P = sphere -> p_muabs P = 0 -> (forall e i k, 0 <= steps e i k) ->
  (forall i, (i < n)%nat -> wf_len (T i) /\ flat 1 (T i)) ->
  calc_refl_trans fuel angs steps P false d (map T (seq 0 n)) = Ok (Some o) ->
  o_refl o + o_trans o = 1.
Proof. exact sphere_conserves. Qed.
Print Assumptions C34_sphere_energy.

Theorem C34_sphere_absorbing : forall fuel angs steps P d n T o,
  (0 < n)%nat -> valid_params P n -> plain P -> p_boundary P = sphere ->
  0 <= p_muabs P -> (forall e i k, 0 <= steps e i k) ->
  (forall i, (i < n)%nat -> col_ok 1 (T i)) ->
  calc_refl_trans fuel angs steps P false d (map T (seq 0 n)) = Ok (Some o) ->
  0 <= o_refl o /\ 0 <= o_trans o /\ o_refl o + o_trans o <= 1.
Proof.
  intros fuel angs steps P d n T o Hn Hv (Hgo & _) Hb Hmu Hst HT H.
  destruct (fractions_hold _ _ _ _ _ _ _ _ Hn Hv (or_intror Hgo) Hmu Hst HT H) as (A & B & C & _). auto.
Qed.
Print Assumptions C34_sphere_absorbing.

(** C35.  False for every limit but 0: nested calls fall back to 20. *)
Theorem C35_depth_refuted : forall m angs steps, (0 < m)%nat ->
  exists o, calc_refl_trans 21 angs steps (still_sphere m) false 0 [inner_traj] = Ok (Some o)
    /\ o_generations o = 20%nat.
Proof. exact depth_refuted_l. Qed.
Print Assumptions C35_depth_refuted.

Theorem C35_depth_zero_partial : forall fuel angs steps P ft d trs o,
  (0 < fuel)%nat -> p_maxdepth P = 0%nat ->
  calc_refl_trans fuel angs steps P ft d trs = Ok (Some o) -> o_generations o = 0%nat.
Proof.
  intros fuel angs steps P ft d trs o Hf Hm H.
  assert (E : gens_left (p_maxdepth P) d = 0%nat) by (unfold gens_left; now rewrite Hm).
  destruct (crt_fuel fuel angs steps P ft d trs) as (_ & G & _); [lia|].
  destruct (G o H) as [G1 _]. lia.
Qed.
Print Assumptions C35_depth_zero_partial.

(** C36: 21 units of fuel always suffice, and more change nothing. *)
Theorem C36_terminates : forall fuel angs steps P ft trs,
  (21 <= fuel)%nat ->
  calc_refl_trans fuel angs steps P ft 0 trs <> Err OutOfFuel
  /\ (forall o, calc_refl_trans fuel angs steps P ft 0 trs = Ok (Some o) -> (o_generations o <= 20)%nat)
  /\ calc_refl_trans fuel angs steps P ft 0 trs = calc_refl_trans 21 angs steps P ft 0 trs.
Proof. exact crt_terminates. Qed.
Print Assumptions C36_terminates.

(** C37 *)
Theorem C37_exit_point : forall p0 p1 r,
  0 < r -> dot p0 p0 < r ^ 2 -> r ^ 2 < dot p1 p1 ->
  let q := find_vec_sphere_intersect p0 p1 r in
  dot q q = r ^ 2 /\ exists s, 0 < s < 1 /\ q = vadd p0 (vscale s (vsub p1 p0)).
Proof. exact intersect_spec. Qed.
Print Assumptions C37_exit_point.

(** C38 *)
Theorem C38_rotation : forall p q n k l alpha,
  unit n ->
  dot (rotate_refract p n k alpha) (rotate_refract p n l alpha) = dot k l
  /\ rotate_refract p n n alpha = n
  /\ rotate_refract p n k alpha = rotate_refract q n k alpha
  /\ rotate_refract p n (rotate_refract p n k alpha) (- alpha) = k
  /\ (dot n k = 0 ->
        dot (rotate_refract p n k alpha) k = cos alpha * dot k k
        /\ dot (cross k (rotate_refract p n k alpha)) n = sin alpha * dot k k).
Proof.
  intros p q n k l alpha Hn. unfold unit in Hn.
  split; [now apply rot_isometry|].
  split. { pose proof (rot_axis p n alpha 1 Hn) as H. unfold vscale in H.
           destruct n as [[a b] c]. cbn [vx vy vz] in H. rewrite !Rmult_1_l in H. exact H. }
  split; [now apply rot_point|]. split; [now apply rot_inverse|]. now apply rot_turns.
Qed.
Print Assumptions C38_rotation.

(** C39.  False: for any ray leaving below the equator into a rarer medium
    horizontally, exit_kz has the wrong sign (the axis is not normalised and
    the rotation goes the wrong way).  Without index contrast it is right. *)
Theorem C39_no_contrast_partial : forall ev t th n z,
  0 < n -> exit_kz ev t th n n = Some z -> fst (sphere_exit_angle th t ev) <= PI / 2 ->
  z = vz (vselect (t_dir t) ev).
Proof. exact exit_kz_same. Qed.
Print Assumptions C39_no_contrast_partial.

Theorem C39_exit_kz_refuted : forall h n1 n2,
  0 < h < 1 -> 0 < n2 < n1 -> n1 * h < n2 ->
  let n := (sqrt (1 - h ^ 2), 0, - h) in
  (exists z, exit_kz 1 (low_ray h) 2 n1 n2 = Some z /\ z < 0)
  /\ (forall d, unit d -> 0 <= dot d n -> cross d n = vscale (n1 / n2) (cross (1, 0, 0) n) -> 0 < vz d).
Proof. exact exit_kz_wrong_side. Qed.
Print Assumptions C39_exit_kz_refuted.

(** C40 *)
Theorem C40_reflection : forall k l n,
  unit n ->
  rotate_reflect k n = mirror n k
  /\ dot (rotate_reflect k n) (rotate_reflect l n) = dot k l
  /\ rotate_reflect (rotate_reflect k n) n = k
  /\ dot (rotate_reflect k n) n = - dot k n
  /\ (forall t, dot t n = 0 -> dot (rotate_reflect k n) t = dot k t).
Proof.
  intros k l n Hn. split; [apply reflect_mirror|]. split; [now apply reflect_isometry|].
  split; [now apply reflect_involution|]. split; [now apply reflect_normal|].
  intros t Ht. now apply reflect_tangent.
Qed.
Print Assumptions C40_reflection.

(** C41 *)
Theorem C41_goniometer_refraction : forall k p n1 n2,
  unit k -> vz k <> 0 -> (vx k <> 0 \/ vy k <> 0) -> 0 < n1 -> 0 < n2 ->
  n1 * sqrt (1 - vz k ^ 2) <= n2 ->
  exists d q, calc_refracted_direction k p n1 n2 = Some (d, q)
    /\ unit d /\ vz d <= 0
    /\ vx d = n1 / n2 * vx k /\ vy d = n1 / n2 * vy k
    /\ vz q = 0 /\ exists s, q = vadd p (vscale s k).
Proof. exact refracted_direction_spec. Qed.
Print Assumptions C41_goniometer_refraction.

(** C42.  False: the flips ignore the TIR event altogether, and flip also
    trajectories that were never totally reflected.  x, y, weights and the
    magnitude of z are kept. *)
Theorem C42_tir_shift_refuted :
  exists t, wf_len t /\ dirs_ok t
  /\ i_tir (event_indices 1 1 1 0 film t) = 0%nat
  /\ vz (nth 1 (t_dir (shift_traj_tir t 0)) vzero) = - vz (nth 1 (t_dir t) vzero)
  /\ vz (nth 1 (t_dir t) vzero) <> 0.
Proof. exact shift_refuted_l. Qed.
Print Assumptions C42_tir_shift_refuted.

Theorem C42_ignores_event : forall t e1 e2, shift_traj_tir t e1 = shift_traj_tir t e2.
Proof. exact shift_ignores_event. Qed.
Print Assumptions C42_ignores_event.

Theorem C42_keeps_partial : forall t ev,
  t_w (shift_traj_tir t ev) = t_w t
  /\ map vx (t_pos (shift_traj_tir t ev)) = map vx (t_pos t)
  /\ map vy (t_pos (shift_traj_tir t ev)) = map vy (t_pos t)
  /\ map vx (t_dir (shift_traj_tir t ev)) = map vx (t_dir t)
  /\ map vy (t_dir (shift_traj_tir t ev)) = map vy (t_dir t)
  /\ map (fun p => Rabs (vz p)) (t_pos (shift_traj_tir t ev)) = map (fun p => Rabs (vz p)) (t_pos t)
  /\ map (fun p => Rabs (vz p)) (t_dir (shift_traj_tir t ev)) = map (fun p => Rabs (vz p)) (t_dir t).
Proof. exact shift_keeps. Qed.
Print Assumptions C42_keeps_partial.

(** C43.  False for the z coordinate of the first point, which is not clamped
    from below; holds for the other five. *)
Theorem C43_clamp_refuted : exists p0 p1 r, 0 < r /\
  vz (fst (inf_to_large p0 p1 r)) < - (10 ^ 20 * r).
Proof. exact inf_to_large_refuted_l. Qed.
Print Assumptions C43_clamp_refuted.

Theorem C43_clamp_partial : forall p0 p1 r,
  0 < r ->
  let '(q0, q1) := inf_to_large p0 p1 r in
  let ok x y := Rabs y <= 10 ^ 20 * r /\ (0 < x <-> 0 < y) /\ (x < 0 <-> y < 0)
                /\ (Rabs x <= 10 ^ 20 * r -> y = x) in
  ok (vx p0) (vx q0) /\ ok (vy p0) (vy q0)
  /\ ok (vx p1) (vx q1) /\ ok (vy p1) (vy q1) /\ ok (vz p1) (vz q1).
Proof.
  intros p0 p1 r Hr. unfold inf_to_large. cbn [vx vy vz].
  repeat split; try (now apply cap_hi_lo_range); try (now apply cap_hi_lo_sign);
    intros; now apply cap_hi_lo_small.
Qed.
Print Assumptions C43_clamp_partial.

(** C44: the arguments of calc_haze are the trajectories and the result of
    calc_refl_trans on them. *)
Theorem C44_haze : forall fuel angs steps P d n T o c,
  (0 < n)%nat -> valid_params P n -> p_boundary P = film -> 0 <= p_muabs P ->
  (forall e i k, 0 <= steps e i k) -> (forall i, (i < n)%nat -> col_ok 1 (T i)) ->
  calc_refl_trans fuel angs steps P false d (map T (seq 0 n)) = Ok (Some o) ->
  0 < o_trans o ->
  exists h, calc_haze (map T (seq 0 n)) (o_trans_per o) (o_trans o) (o_trans_i o) c = Some h
    /\ fraction h
    /\ (PI / 2 < c -> h = 0) /\ (c <= 0 -> h = 1)
    /\ forall c' h', c <= c' ->
         calc_haze (map T (seq 0 n)) (o_trans_per o) (o_trans o) (o_trans_i o) c' = Some h' -> h' <= h.
Proof. exact haze_of_result. Qed.
Print Assumptions C44_haze.

(** C64.  False. *)
Theorem C64_sphere_goniometer_refuted :
  exists r t, distribute_ambig_traj_weights [1 / 2] [0] (Some 1) (Some 0) 1 1 [1 / 2] [0] [0] [0] sphere true
    = Some (r, t, [r], [t]) /\ r + t = 5 / 4.
Proof. exact sphere_gonio_creates. Qed.
Print Assumptions C64_sphere_goniometer_refuted.

(** C65.  False: a ray leaving exactly along the normal is never detected. *)
Theorem C65_normal_ray_refuted : forall c p n1 n2, calc_refracted_direction (0, 0, c) p n1 n2 = None.
Proof. exact refracted_direction_normal. Qed.
Print Assumptions C65_normal_ray_refuted.

Theorem C65_index_detected_refuted : forall ev t det_theta det_len det_dist n1 n2,
  vx (vselect (t_dir t) ev) = 0 -> vy (vselect (t_dir t) ev) = 0 ->
  calc_index_detected ev t det_theta det_len det_dist n1 n2 = 0%nat.
Proof.
  intros ev t a b c n1 n2 Hx Hy. unfold calc_index_detected.
  destruct (vselect (t_dir t) ev) as [[x y] z]. cbn [vx vy] in Hx, Hy. subst x y.
  now rewrite refracted_direction_normal.
Qed.
Print Assumptions C65_index_detected_refuted.

(** C66.  False: a stuck trajectory of a sphere is restarted at the pole with
    a zero direction, so it never moves again. *)
Theorem C66_stuck_restart_refuted : forall radius angs steps i t w,
  0 < radius -> (0 < length (t_pos t))%nat ->
  exists t', rerun_traj radius 0 angs steps i t 0 w = Ok t'
    /\ Forall (fun p => p = vzero) (t_pos t') /\ Forall (fun k => k = vzero) (t_dir t').
Proof.
  intros radius angs steps i t w Hr Hl. eexists. split; [now apply rerun_parked|].
  split; apply Forall_forall; intros x Hx; now apply repeat_spec in Hx.
Qed.
Print Assumptions C66_stuck_restart_refuted.

(** A trajectory that had left the sphere is restarted where its segment crosses
    the sphere, in the mirrored exit direction, and moves on by the sampled
    steps. *)
Theorem C66_exit_restart_partial : forall radius mu angs steps i t idx w t',
  let p0 := nth (idx - 1) (t_pos t) vzero in
  let p1 := nth idx (t_pos t) vzero in
  0 < radius -> wf_len t -> (1 <= idx <= length (t_dir t))%nat ->
  vx p0 ^ 2 + vy p0 ^ 2 + (vz p0 - radius) ^ 2 < radius ^ 2 -> ~ in_sphere radius p1 ->
  Rabs (vx p1) <= 10 ^ 20 * radius -> Rabs (vy p1) <= 10 ^ 20 * radius -> Rabs (vz p1) <= 10 ^ 20 * radius ->
  rerun_traj radius mu angs steps i t idx w = Ok t' ->
  let q := nth 0 (t_pos t') vzero in
  let centre := (0, 0, radius) in
  dot (vsub q centre) (vsub q centre) = radius ^ 2
  /\ (exists s, 0 < s < 1 /\ q = vadd p0 (vscale s (vsub p1 p0)))
  /\ nth 0 (t_dir t') vzero = mirror (vscale (/ radius) (vsub q centre)) (nth (idx - 1) (t_dir t) vzero)
  /\ (forall j, (j < length (t_pos t))%nat ->
        vsub (nth (S j) (t_pos t') vzero) (nth j (t_pos t') vzero) = vscale (steps i j) (nth j (t_dir t') vzero)).
Proof. exact rerun_start. Qed.
Print Assumptions C66_exit_restart_partial.

(** C101.  [k], [p]: direction and position of the exit event; [q]: where the
    ray leaves the film surface; [d]: the refracted direction. *)
Theorem C101_goniometer_window : forall ev t theta len dist n1 n2,
  let k := vselect (t_dir t) ev in
  let p := vselect (tl (t_pos t)) ev in
  unit k -> vz k <> 0 -> (vx k <> 0 \/ vy k <> 0) -> 0 < n1 -> 0 < n2 ->
  n1 * sqrt (1 - vz k ^ 2) <= n2 -> theta < PI / 2 ->
  forall q d, vz q = 0 -> (exists s, q = vadd p (vscale s k)) ->
  unit d -> vz d <= 0 -> vx d = n1 / n2 * vx k -> vy d = n1 / n2 * vy k ->
  dot q q < hemisphere_radius_sq len dist ->
  exists h s, 0 < s /\ h = vadd q (vscale s d) /\ dot h h = hemisphere_radius_sq len dist
    /\ (on_detector theta len dist h -> calc_index_detected ev t theta len dist n1 n2 = ev)
    /\ (~ on_detector theta len dist h -> calc_index_detected ev t theta len dist n1 n2 = 0%nat).
Proof. exact gonio_window. Qed.
Print Assumptions C101_goniometer_window.

Theorem C101_nothing_behind : forall ev t theta len dist n1 n2, 0 <= len -> PI / 2 <= theta <= PI ->
  calc_index_detected ev t theta len dist n1 n2 = 0%nat.
Proof. exact gonio_behind. Qed.
Print Assumptions C101_nothing_behind.

(** A ray leaving at 30 degrees in a film without contrast, and the detector in
    its way. *)
Example C101_case :
  let t := mk_traj [(0, 0, sqrt 3 / 2); (- (1 / 2), 0, 0)] [(- (1 / 2), 0, - (sqrt 3 / 2))] [1] in
  calc_index_detected 1 t (- (PI / 6)) 1 10 1 1 = 1%nat.
Proof.
  intros t.
  assert (S3 : sqrt 3 * sqrt 3 = 3) by (apply sqrt_sqrt; lra).
  assert (S0 : 0 < sqrt 3) by (apply sqrt_lt_R0; lra).
  destruct (C101_goniometer_window 1 t (- (PI / 6)) 1 10 1 1) with (q := (- (1 / 2), 0, 0)) (d := (- (1 / 2), 0, - (sqrt 3 / 2)))
    as (h & s & Hs & Hh & Hr & Hyes & _).
  - unfold t, unit, dot; cbn [t_dir vselect nth vx vy vz]. nra.
  - cbn. lra.
  - left. cbn. lra.
  - lra.
  - lra.
  - cbn [t t_dir vselect nth vx vy vz]. replace (1 - (- (sqrt 3 / 2)) ^ 2) with ((1 / 2) ^ 2) by nra.
    rewrite sqrt_pow2; lra.
  - pose proof PI_RGT_0. lra.
  - reflexivity.
  - exists 0. cbn. unfold vadd, vscale. cbn. f_equal; [f_equal; ring|ring].
  - unfold unit, dot; cbn [vx vy vz]. nra.
  - cbn. lra.
  - cbn. lra.
  - cbn. lra.
  - unfold dot, hemisphere_radius_sq; cbn. lra.
  - apply Hyes. subst h. unfold on_detector, vadd, vscale, hemisphere_radius_sq, dot in *. cbn [vx vy vz] in *.
    rewrite sin_neg, cos_neg, sin_PI6, cos_PI6.
    assert (E : s ^ 2 + s / 2 + 1 / 4 = 10 ^ 2 + (1 / 2) ^ 2) by nra.
    assert (97 / 10 < s < 10) by nra.
    assert (17 / 10 < sqrt 3) by nra.
    split; [apply Rabs_def1; nra|]. split; [apply Rabs_def1; nra|nra].
Qed.

(** C102.  A sample that reflects the share [refl] uniformly over the detection
    hemisphere sends refl * len^2 / (2 pi dist^2) into the detector.  After the
    normalisation the goniometer reads refl * cos theta, which is [refl] only on
    the normal; a Lambertian sample (share proportional to cos theta / pi) reads
    2 refl cos^2 theta. *)
Theorem C102_uniform_reflector_refuted : forall refl dist len theta, 0 < dist -> 0 < len ->
  normalize_refl_goniometer (refl * (len ^ 2 / (2 * PI * dist ^ 2))) dist len theta = refl * cos theta
  /\ normalize_refl_goniometer (refl * (cos theta * len ^ 2 / (PI * dist ^ 2))) dist len theta
     = refl * (2 * cos theta ^ 2).
Proof.
  intros refl dist len theta Hd Hl. unfold normalize_refl_goniometer. pose proof PI_RGT_0.
  assert (0 < dist ^ 2) by now apply pow_lt. assert (0 < len ^ 2) by now apply pow_lt.
  split; field; repeat split; lra.
Qed.
Print Assumptions C102_uniform_reflector_refuted.
Theorem C102_reads_low_refuted : forall refl dist len theta, 0 < dist -> 0 < len -> 0 < refl -> 0 < theta < PI / 2 ->
  normalize_refl_goniometer (refl * (len ^ 2 / (2 * PI * dist ^ 2))) dist len theta < refl.
Proof.
  intros refl dist len theta Hd Hl Hr Ht.
  rewrite (proj1 (C102_uniform_reflector_refuted refl dist len theta Hd Hl)).
  assert (cos theta < cos 0) by (apply cos_decreasing_1; lra). rewrite cos_0 in H. nra.
Qed.
Print Assumptions C102_reads_low_refuted.

(* ------------------------------------------------------------------ *)
(** Concrete cases meeting the hypotheses. *)

(** A film of index 3/2 and thickness 1 in air; one trajectory enters, goes
    down to z = 1/2 and comes back. *)
Definition ex_film : params :=
  mk_params 1 1 (3 / 2) film 0 (PI / 2) None None false 20 (1 / 100) 0 None None None 0 None None.
Definition ex_traj : traj := mk_traj [(0, 0, 0); (0, 0, 1 / 2); (0, 0, - 1)] [(0, 0, 1); (0, 0, -1)] [1; 1].

Lemma ex_film_valid : valid_params ex_film 1.
Proof. unfold valid_params, ex_film; cbn. repeat split; try lra; discriminate. Qed.
Lemma ex_film_plain : plain ex_film /\ full_detection ex_film.
Proof. repeat split. Qed.
Lemma ex_traj_ok : wf_len ex_traj /\ dirs_ok ex_traj /\ flat 1 ex_traj /\ col_ok 1 ex_traj.
Proof.
  assert (W : wf_len ex_traj) by (repeat split; cbn; lia).
  repeat split; try (cbn; lia).
  - repeat (constructor; [cbn; lra|]). constructor.
  - repeat (constructor; [cbn; lra|]). constructor.
Qed.

Lemma ex_steep : steep (3 / 2) 1 1 /\ steep (3 / 2) 1 (-1).
Proof.
  unfold steep. replace (1 - 1 ^ 2) with 0 by ring. replace (1 - (-1) ^ 2) with 0 by ring.
  rewrite sqrt_0. lra.
Qed.

Lemma ex_event : exists ti, event_indices (3 / 2) 1 1 0 film ex_traj = (2%nat, 0%nat, 0%nat, ti).
Proof.
  destruct ex_traj_ok as (W & D & _).
  destruct (first_exit_physical (3 / 2) 1 1 ex_traj 1 W D) as [H _]; try (cbn; lra); try (cbn; lia).
  - intros [|[|j]] Hj; cbn; try lra. lia.
  - apply ex_steep.
  - apply H. cbn. lra.
Qed.

(** calc_refl_trans returns numbers for it: hypotheses of C31, C32, C44. *)
Example ex_film_number : exists o,
  calc_refl_trans 1 (fun _ _ _ => (0, 0)) (fun _ _ _ => 0) ex_film false 0 (map (fun _ => ex_traj) (seq 0 1))
    = Ok (Some o) /\ o_refl o + o_trans o = 1.
Proof.
  destruct ex_traj_ok as (W & D & F & C).
  assert (E : Rabs (3 / 2) = 3 / 2) by (apply Rabs_pos_eq; lra).
  destruct (C33_film_number_partial 0 (fun _ _ _ => (0, 0)) (fun _ _ _ => 0) ex_film 0 1 (fun _ => ex_traj) 0
    ex_film_valid (proj1 ex_film_plain) eq_refl eq_refl ltac:(discriminate) ltac:(discriminate)) as [o Ho].
  - intros i _. split; [exact W|]. split; [exact D|]. split; [exact (proj2 C)|].
    cbn [p_nsample p_nmedium ex_film]. rewrite E. apply ex_steep.
  - lia.
  - cbn [p_nsample p_nmedium p_thickness p_zlow ex_film]. rewrite E.
    destruct ex_event as [ti He]. exists 2%nat, 0%nat, 0%nat, ti.
    split; [exact He|]. split; [lia|]. cbn. lra.
  - exists o. split; [exact Ho|].
    apply (C31_film_energy 1 (fun _ _ _ => (0, 0)) (fun _ _ _ => 0) ex_film 0 1 (fun _ => ex_traj) o); auto.
    + apply ex_film_valid.
    + apply (proj1 ex_film_plain).
    + apply (proj2 ex_film_plain).
Qed.

(** The same between glass plates. *)
Definition ex_glass_film : params :=
  mk_params 1 1 (3 / 2) film 0 (PI / 2) (Some (7 / 5)) (Some (8 / 5)) false 20 (1 / 100) 0 None None None 0 None None.
Example ex_film_glass_number : exists o,
  calc_refl_trans 1 (fun _ _ _ => (0, 0)) (fun _ _ _ => 0) ex_glass_film false 0 (map (fun _ => ex_traj) (seq 0 1))
    = Ok (Some o) /\ o_refl o + o_trans o = 1.
Proof.
  destruct ex_traj_ok as (W & D & F & C).
  assert (E : Rabs (3 / 2) = 3 / 2) by (apply Rabs_pos_eq; lra).
  assert (G : forall a b : R, 0 < a -> forall m, Some a = Some m -> 0 < m).
  { intros a b Ha m Em. assert (Em' := f_equal (fun x => match x with Some y => y | None => 0 end) Em). cbn in Em'. lra. }
  assert (G1 : forall a : R, 1 <= a -> forall m, Some a = Some m -> 1 <= m).
  { intros a Ha m Em. assert (Em' := f_equal (fun x => match x with Some y => y | None => 0 end) Em). cbn in Em'. lra. }
  assert (V : valid_params ex_glass_film 1).
  { unfold valid_params, ex_glass_film; cbn. repeat split; try lra; try discriminate; apply (G _ 0); lra. }
  destruct (C33_film_number_partial 0 (fun _ _ _ => (0, 0)) (fun _ _ _ => 0) ex_glass_film 0 1 (fun _ => ex_traj) 0
    V ltac:(repeat split) eq_refl eq_refl) as [o Ho].
  - apply G1. lra.
  - apply G1. lra.
  - intros i _. split; [exact W|]. split; [exact D|]. split; [exact (proj2 C)|].
    cbn [p_nsample p_nmedium ex_glass_film]. rewrite E. apply ex_steep.
  - lia.
  - cbn [p_nsample p_nmedium p_thickness p_zlow ex_glass_film]. rewrite E.
    destruct ex_event as [ti He]. exists 2%nat, 0%nat, 0%nat, ti.
    split; [exact He|]. split; [lia|]. cbn. lra.
  - exists o. split; [exact Ho|].
    apply (C31_film_energy 1 (fun _ _ _ => (0, 0)) (fun _ _ _ => 0) ex_glass_film 0 1 (fun _ => ex_traj) o); auto.
    + repeat split.
    + reflexivity.
Qed.

(** The counterexample of C33: the same film, a trajectory that stays inside. *)
Example ex_film_nan :
  calc_refl_trans 1 (fun _ _ _ => (0, 0)) (fun _ _ _ => 0) ex_film false 0
    (map (fun _ => mk_traj [(0, 0, 0); (0, 0, 1 / 2)] [(0, 0, 1)] [1]) (seq 0 1)) = Ok None.
Proof.
  apply (C33_numbers_refuted 0); try reflexivity.
  - apply ex_film_valid.
  - cbn. lra.
  - intros i _. split; [repeat split; cbn; lia|]. split; [constructor; [reflexivity|constructor]|].
    intros p [<-|[<-|[]]]; cbn; lra.
Qed.

(** A sphere re-run all 20 times: hypotheses of C34 (run_fresnel_traj=True). *)
Example ex_sphere : exists o,
  calc_refl_trans 21 (fun _ _ _ => (0, 0)) (fun _ _ _ => 1) (still_sphere 20) false 0
    (map (fun _ => inner_traj) (seq 0 1)) = Ok (Some o)
  /\ o_refl o + o_trans o = 1 /\ o_generations o = 20%nat.
Proof.
  destruct (C35_depth_refuted 20 (fun _ _ _ => (0, 0)) (fun _ _ _ => 1) ltac:(lia)) as (o & Ho & Hg).
  exists o. split; [exact Ho|]. split; [|exact Hg].
  apply (C34_sphere_energy 21 (fun _ _ _ => (0, 0)) (fun _ _ _ => 1) (still_sphere 20) 0 1 (fun _ => inner_traj) o);
    try reflexivity; try lia.
  - unfold valid_params, still_sphere; cbn. repeat split; try lra; discriminate.
  - repeat split.
  - intros; lra.
  - intros i _. repeat split; cbn; lia.
  - exact Ho.
Qed.

Example ex_exits : exists ps ng ti, find_valid_exits (3 / 2) 1 1 0 film ex_traj = (ps, ng, ti)
  /\ wf_len ex_traj /\ dirs_ok ex_traj /\ in_slab 0 (1 - 0) (vz (nth 1 (t_pos ex_traj) vzero)) 0.
Proof.
  destruct (find_valid_exits (3 / 2) 1 1 0 film ex_traj) as [[ps ng] ti].
  exists ps, ng, ti. destruct ex_traj_ok as (W & D & _). repeat split; try apply W; try apply D; cbn; lra.
Qed.

Example ex_intersect : let p0 := (0, 0, 1 / 2) in let p1 := (3, 0, 0) in
  dot p0 p0 < 1 ^ 2 /\ 1 ^ 2 < dot p1 p1.
Proof. unfold dot; cbn. lra. Qed.

Example ex_low_ray : 0 < 1 / 2 < 1 /\ 0 < 1 < 3 / 2 /\ 3 / 2 * (1 / 2) < 1.
Proof. lra. Qed.

Example ex_gonio_dir : unit (3 / 5, 0, 4 / 5) /\ (5 / 4) * sqrt (1 - (4 / 5) ^ 2) <= 1.
Proof.
  split; [unfold unit, dot; cbn; field|].
  replace (1 - (4 / 5) ^ 2) with ((3 / 5) ^ 2) by field. rewrite sqrt_pow2; lra.
Qed.

(** C88: the exit from a sphere is the first position outside it. *)
Theorem C88_stays_inside : forall n_sample n_medium thickness z_low t,
  wf_len t -> (forall p, In p (tl (t_pos t)) -> in_sphere (thickness / 2) p) ->
  event_indices n_sample n_medium thickness z_low sphere t = (0, 0, length (t_dir t), 0)%nat.
Proof. exact stays_inside. Qed.
Print Assumptions C88_stays_inside.

(** (reflected, transmitted, stuck, totally reflected) event numbers. *)
Theorem C88_first_outside : forall n_sample n_medium thickness z_low t i,
  wf_len t -> leaves_sphere (thickness / 2) t i ->
  let e := event_indices n_sample n_medium thickness z_low sphere t in
  e = (S i, 0, 0, 0)%nat \/ e = (0, S i, 0, 0)%nat
  \/ e = (0, 0, length (t_dir t), 0)%nat \/ e = (0, 0, length (t_dir t), S i)%nat.
Proof.
  intros ns nm th zl t i Hw Hl. cbv zeta. rewrite (leaves_events ns nm th zl t i Hw Hl).
  destruct (exit_kz _ _ _ _ _) as [z|]; [|tauto].
  destruct (Rltb z 0); [tauto|]. destruct (Rltb 0 z); tauto.
Qed.
Print Assumptions C88_first_outside.

(** Without index contrast the sign of the direction's z-component decides. *)
Theorem C88_matched_direction : forall n thickness z_low t i,
  0 < thickness -> 0 < n -> wf_len t -> leaves_sphere (thickness / 2) t i ->
  let kz := vz (nth i (t_dir t) vzero) in
  let e := event_indices n n thickness z_low sphere t in
  (kz < 0 -> e = (S i, 0, 0, 0)%nat) /\ (0 < kz -> e = (0, S i, 0, 0)%nat)
  /\ (kz = 0 -> e = (0, 0, length (t_dir t), 0)%nat).
Proof. exact leaves_matched. Qed.
Print Assumptions C88_matched_direction.

(** Total reflection is recorded exactly past the critical angle: [q] is where
    the step crosses the sphere, [k] the direction of travel. *)
Theorem C88_total_reflection : forall n_sample n_medium thickness z_low t i,
  0 < thickness -> 0 < n_sample -> 0 < n_medium -> wf_len t -> leaves_sphere (thickness / 2) t i ->
  let r := thickness / 2 in
  let centre p := (vx p, vy p, vz p - r) in
  let p0 := centre (nth i (t_pos t) vzero) in
  let p1 := centre (nth (S i) (t_pos t) vzero) in
  dot p0 p0 < r ^ 2 ->
  Rabs (vx p1) <= 10 ^ 20 * r -> Rabs (vy p1) <= 10 ^ 20 * r -> Rabs (vz p1) <= 10 ^ 20 * r ->
  exists q s k tir, dot q q = r ^ 2 /\ 0 < s < 1 /\ q = vadd p0 (vscale s (vsub p1 p0))
    /\ unit k /\ (exists m, 0 < m /\ vsub p1 p0 = vscale m k)
    /\ snd (event_indices n_sample n_medium thickness z_low sphere t) = tir
    /\ (n_medium * r < n_sample * sqrt (r ^ 2 - dot q k ^ 2) -> tir = S i)
    /\ (n_sample * sqrt (r ^ 2 - dot q k ^ 2) <= n_medium * r -> tir = 0%nat).
Proof. exact leaves_tir. Qed.
Print Assumptions C88_total_reflection.

Example ex_leaves : wf_len (low_ray (1 / 2)) /\ leaves_sphere (2 / 2) (low_ray (1 / 2)) 0
  /\ event_indices 1 1 2 0 sphere (mk_traj [(0, 0, 1); (0, 2, 2)] [(0, 2 / 3, 1 / 3)] [1]) = (0, 1, 0, 0)%nat.
Proof.
  split; [repeat split; cbn; lia|]. split.
  - split; [cbn; lia|]. split.
    + unfold in_sphere, low_ray. cbn [t_pos nth vx vy vz]. lra.
    + intros j Hj. assert (j = 0)%nat as -> by lia. unfold in_sphere, low_ray. cbn [t_pos nth vx vy vz]. lra.
  - apply (proj1 (proj2 (C88_matched_direction 1 2 0 (mk_traj [(0, 0, 1); (0, 2, 2)] [(0, 2 / 3, 1 / 3)] [1]) 0
       ltac:(lra) ltac:(lra) ltac:(repeat split; cbn; lia)
       ltac:(split; [cbn; lia|]; split;
             [unfold in_sphere; cbn [t_pos nth vx vy vz]; lra
             |intros j Hj; assert (j = 0)%nat as -> by lia; unfold in_sphere; cbn [t_pos nth vx vy vz]; lra])))).
    cbn. lra.
Qed.
