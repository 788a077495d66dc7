(** What does hold of properties whose full statement is false: C26, C64, C65,
    C70, C87, C94, C97, C109.  The refutations are in the files named in each
    comment. *)
From Coq Require Import Lra Lia Psatz.
From Verif Require Import M_fields L_fields Num Spec Spec_bulk Spec_detector Spec_optics M_init M_montecarlo M_detector M_reflection M_phase_func_sphere
  M_refractive_index L_num L_interp L_material L_trapezoid L_sizes L_bulk_pdf L_companion Properties_detector Properties_refractive_index Properties_bulk Properties_reflection.
Open Scope R_scope.

(** C70 (Properties_refractive_index.v).  The value returned for data is off the
    interpolant at the requested wavelength by at most 0.005 of the data's unit
    times the steepest slope of the data. *)
Theorem C70_error_bound_partial : forall xs ys unit w i slope v,
  length ys = length xs -> Spec_optics.increasing (combine xs ys) -> (S i < length xs)%nat ->
  nth i xs 0 <= w / unit <= nth (S i) xs 0 ->
  (forall j, (S j < length xs)%nat -> Rabs (nth (S j) ys 0 - nth j ys 0) <= slope * (nth (S j) xs 0 - nth j xs 0)) ->
  n_material "data" w (Some ys) (Some (xs, unit)) = Ok (Some v) ->
  Rabs (v - chord (nth i xs 0, nth i ys 0) (nth (S i) xs 0, nth (S i) ys 0) (w / unit)) <= 0.005 * slope.
Proof.
  intros xs ys unit w i slope v L Hi Hl Hw Hs E.
  assert (LC : length (combine xs ys) = length xs) by (rewrite combine_length; lia).
  assert (HL : 0 <= slope).
  { pose proof (Hs i Hl) as P. pose proof (Hi i ltac:(lia)) as Q. rewrite !combine_nth in Q by lia. cbn [fst] in Q.
    pose proof (Rabs_pos (nth (S i) ys 0 - nth i ys 0)). nra. }
  unfold n_material in E. rewrite (String.eqb_refl "data"), (proj2 (Nat.eqb_eq _ _) L) in E.
  destruct (interp_linear (combine xs ys) (round2 (w / unit))) as [v'|] eqn:E1; [|discriminate]. injection E as ->.
  assert (E2 : interp_linear (combine xs ys) (w / unit)
             = Some (chord (nth i xs 0, nth i ys 0) (nth (S i) xs 0, nth (S i) ys 0) (w / unit))).
  { rewrite (interp_linear_chord (combine xs ys) i); [rewrite !combine_nth by lia; reflexivity|exact Hi|lia|].
    rewrite !combine_nth by lia. exact Hw. }
  eapply Rle_trans; [apply (interp_lipschitz slope (combine xs ys) (w / unit) (round2 (w / unit)) _ _ HL Hi); [|exact E2|exact E1]|].
  - intros j Hj. rewrite !combine_nth by lia. apply Hs. lia.
  - pose proof (round2_err (w / unit)). rewrite (Rmult_comm slope). apply Rmult_le_compat_r; assumption.
Qed.
Print Assumptions C70_error_bound_partial.

(** A wavelength at least 0.005 of the unit inside the data is accepted. *)
Theorem C70_inside_accepted_partial : forall xs ys unit w,
  length ys = length xs -> Spec_optics.increasing (combine xs ys) -> (2 <= length xs)%nat ->
  nth 0 xs 0 + 0.005 <= w / unit <= nth (length xs - 1) xs 0 - 0.005 ->
  exists v, n_material "data" w (Some ys) (Some (xs, unit)) = Ok (Some v).
Proof.
  intros xs ys unit w L Hi Hl Hw.
  assert (LC : length (combine xs ys) = length xs) by (rewrite combine_length; lia).
  assert (He : - 0.005 <= round2 (w / unit) - w / unit <= 0.005).
  { pose proof (round2_err (w / unit)). pose proof (Rle_abs (round2 (w / unit) - w / unit)).
    pose proof (Rle_abs (- (round2 (w / unit) - w / unit))). rewrite Rabs_Ropp in *. lra. }
  unfold n_material. rewrite (String.eqb_refl "data"), (proj2 (Nat.eqb_eq _ _) L).
  destruct (interp_linear (combine xs ys) (round2 (w / unit))) as [v|] eqn:E; [now exists v|exfalso].
  pose proof (combine_nth xs ys 0 0 0 (eq_sym L)) as N0. pose proof (combine_nth xs ys (length xs - 1) 0 0 (eq_sym L)) as N1.
  unfold interp_linear in E. destruct (combine xs ys) as [|[x0 y0] rest] eqn:Ec; [cbn in LC; lia|].
  rewrite table_last_nth, LC, N1 in E by discriminate. cbn [fst] in E. cbn [nth] in N0.
  assert (x0 = nth 0 xs 0) as -> by (now injection N0).
  rewrite (proj2 (Rltb_false (round2 (w / unit)) (nth 0 xs 0))) in E by lra.
  rewrite (proj2 (Rltb_false (nth (length xs - 1) xs 0) (round2 (w / unit)))) in E by lra. discriminate.
Qed.
Print Assumptions C70_inside_accepted_partial.
Example C70_partial_case :
  let xs := [4 / 10; 6 / 10] in let ys := [15 / 10; 14 / 10] in
  Spec_optics.increasing (combine xs ys)
  /\ Rabs (nth 1 ys 0 - nth 0 ys 0) <= 1 / 2 * (nth 1 xs 0 - nth 0 xs 0)
  /\ nth 0 xs 0 + 0.005 <= (501 / 1000) / 1 <= nth 1 xs 0 - 0.005.
Proof.
  cbv zeta. cbn [nth combine]. split; [intros [|i] H; cbn in *; [lra|lia]|]. split; [|lra].
  rewrite Rabs_left; lra.
Qed.

(** C97 (Properties_bulk.v).  With equal_spacing=True the diameters do scale
    with the unit. *)
Theorem C97_equal_spacing_partial : forall factorial n mean pdi npts s, 0 < s ->
  exists l, calc_diam_list factorial n mean pdi true npts = Ok l
    /\ calc_diam_list factorial n (s * mean) pdi true npts = Ok (map (fun d => s * d) l).
Proof.
  intros factorial n mean pdi npts s Hs. unfold calc_diam_list. cbv zeta. cbn [bind].
  eexists. split; [reflexivity|]. f_equal.
  set (h := Z.to_nat _). set (rm := mean / 2).
  replace (s * mean / 2) with (s * rm) by (unfold rm; field). replace (s * rm / 100) with (s * (rm / 100)) by field.
  replace (2 * (s * rm)) with (s * (2 * rm)) by ring.
  rewrite !linspace_scale, <- map_app. unfold unique. rewrite sort_scale, dedup_scale by exact Hs.
  rewrite !map_map. apply map_ext. intros x. ring.
Qed.
Print Assumptions C97_equal_spacing_partial.

(** C26 (Properties_detector.v).  With equal indices (no total reflection
    either) the first crossing of a face, by a direction not parallel to it, is
    an exit. *)
Theorem C26_equal_indices_partial : forall n th t i,
  wf_len t -> dirs_ok t -> 0 < th -> 0 < n -> (i < length (t_dir t))%nat ->
  (forall j, (j <= i)%nat -> 0 <= vz (nth j (t_pos t) vzero) < th) ->
  vz (nth i (t_dir t) vzero) <> 0 ->
  let z1 := vz (nth (S i) (t_pos t) vzero) in
  (z1 < 0 -> exists ti, event_indices n n th 0 film t = (S i, 0%nat, 0%nat, ti))
  /\ (th <= z1 -> exists ti, event_indices n n th 0 film t = (0%nat, S i, 0%nat, ti)).
Proof.
  intros n th t i Hw Hd Ht Hn Hi Hin Hz. apply C24_first_exit_physical; try assumption; [lra|].
  unfold steep. set (kz := vz (nth i (t_dir t) vzero)) in *.
  assert (0 < kz ^ 2) by (pose proof (pow2_ge_0 kz); assert (kz ^ 2 <> 0) by (apply pow_nonzero; exact Hz); lra).
  rewrite <- (Rmult_1_r n) at 2. apply Rmult_lt_compat_l; [exact Hn|].
  destruct (Rle_dec 0 (1 - kz ^ 2)) as [A|A].
  - rewrite <- sqrt_1 at 2. apply sqrt_lt_1_alt. lra.
  - rewrite sqrt_neg_0 by lra. lra.
Qed.
Print Assumptions C26_equal_indices_partial.
Example C26_partial_case :
  let t := mk_traj [(0, 0, 0); (0, 0, 2)] [(0, 0, 1)] [1] in
  wf_len t /\ dirs_ok t /\ vz (nth 0 (t_dir t) vzero) <> 0 /\ 0 <= vz (nth 0 (t_pos t) vzero) < 1 /\ 1 <= vz (nth 1 (t_pos t) vzero).
Proof.
  cbv zeta. split; [repeat split; cbn; lia|]. split; [|cbn; repeat split; lra].
  constructor; [|constructor]. cbn. lra.
Qed.

(** C65 (Properties_detector.v).  A ray that leaves the film at the centre in
    front of a detector on the axis, off the normal by any non-zero angle small
    enough to meet the detector, is detected. *)
Theorem C65_near_normal_partial : forall ev t len dist n1 n2,
  let k := vselect (t_dir t) ev in
  let p := vselect (tl (t_pos t)) ev in
  unit k -> vz k <> 0 -> (vx k <> 0 \/ vy k <> 0) -> 0 < n1 -> 0 < n2 ->
  n1 * sqrt (1 - vz k ^ 2) <= n2 -> 0 < len < dist ->
  (exists s, vzero = vadd p (vscale s k)) ->
  Rabs (n1 / n2 * vx k) * sqrt (hemisphere_radius_sq len dist) < len / 2 ->
  Rabs (n1 / n2 * vy k) * sqrt (hemisphere_radius_sq len dist) < len / 2 ->
  calc_index_detected ev t 0 len dist n1 n2 = ev.
Proof.
  intros ev t len dist n1 n2 k p Hu Hz Hxy H1 H2 Hs Hl Hq Hx Hy.
  destruct (C41_goniometer_refraction k p n1 n2 Hu Hz Hxy H1 H2 Hs) as (d & q' & _ & Ud & Zd & Xd & Yd & _).
  assert (HR : 0 < hemisphere_radius_sq len dist) by (unfold hemisphere_radius_sq; pose proof (pow2_ge_0 (len / 2)); nra).
  destruct (C101_goniometer_window ev t 0 len dist n1 n2 Hu Hz Hxy H1 H2 Hs ltac:(pose proof PI_RGT_0; lra) vzero d
              eq_refl Hq Ud Zd Xd Yd ltac:(unfold vzero, dot; cbn; lra)) as (h & s & Hsp & Eh & Hh & Hon & _).
  apply Hon. clear Hon.
  set (rr := sqrt (hemisphere_radius_sq len dist)) in *.
  assert (Err : rr * rr = hemisphere_radius_sq len dist) by (apply sqrt_sqrt; lra).
  assert (Hrr : 0 < rr) by (apply sqrt_lt_R0; exact HR).
  destruct d as [[dx dy] dz]. unfold unit, dot in Ud. cbn [vx vy vz] in *.
  assert (Eh' : h = (s * dx, s * dy, s * dz)) by (rewrite Eh; unfold vadd, vscale, vzero; cbn; f_equal; [f_equal|]; ring).
  rewrite Eh' in Hh |- *. unfold dot in Hh. cbn [vx vy vz] in Hh.
  assert (Es : s = rr).
  { assert (s * s = rr * rr) by (rewrite Err, <- Hh; replace (s * s) with (s * s * (dx * dx + dy * dy + dz * dz)) by (rewrite Ud; ring); ring).
    nra. }
  rewrite <- Xd in Hx. rewrite <- Yd in Hy. subst s.
  assert (Ax : Rabs (rr * dx) < len / 2) by (rewrite Rabs_mult, (Rabs_right rr) by lra; lra).
  assert (Ay : Rabs (rr * dy) < len / 2) by (rewrite Rabs_mult, (Rabs_right rr) by lra; lra).
  unfold on_detector. cbn [vx vy vz]. rewrite sin_0, cos_0.
  split; [replace (rr * dx - dist * 0) with (rr * dx) by ring; lra|]. split; [exact Ay|].
  assert (dz <> 0).
  { intros ->. assert (rr * dx * (rr * dx) <= len / 2 * (len / 2)) by (rewrite <- (Rabs_right (rr * dx * (rr * dx))) by (apply Rle_ge, Rle_0_sqr);
      rewrite Rabs_mult; apply Rmult_le_compat; try apply Rabs_pos; lra).
    assert (rr * dy * (rr * dy) <= len / 2 * (len / 2)) by (rewrite <- (Rabs_right (rr * dy * (rr * dy))) by (apply Rle_ge, Rle_0_sqr);
      rewrite Rabs_mult; apply Rmult_le_compat; try apply Rabs_pos; lra).
    unfold hemisphere_radius_sq in Hh. nra. }
  nra.
Qed.
Print Assumptions C65_near_normal_partial.
Example C65_partial_case :
  let t := mk_traj [(0, 0, 1); (20 / 101, 0, - (99 / 101)); (0, 0, 0)] [(20 / 101, 0, - (99 / 101)); (20 / 101, 0, - (99 / 101))] [1; 1] in
  let k := vselect (t_dir t) 2 in
  unit k /\ vz k <> 0 /\ vx k <> 0 /\ (exists s, vzero = vadd (vselect (tl (t_pos t)) 2) (vscale s k))
  /\ Rabs (1 / 1 * vx k) * sqrt (hemisphere_radius_sq (8 / 10) 1) < (8 / 10) / 2.
Proof.
  cbv zeta. cbn [vselect t_dir t_pos nth tl Nat.eqb Nat.sub]. split; [unfold unit, dot; cbn; field|].
  split; [cbn; lra|]. split; [cbn; lra|]. split.
  - exists 0. unfold vzero, vadd, vscale. cbn. f_equal; [f_equal|]; ring.
  - cbn [vx]. rewrite Rabs_right by lra. unfold hemisphere_radius_sq.
    assert (H : sqrt (1 ^ 2 + (8 / 10 / 2) ^ 2) <= sqrt (2 * 2)) by (apply sqrt_le_1_alt; lra).
    rewrite sqrt_square in H by lra. pose proof (sqrt_pos (1 ^ 2 + (8 / 10 / 2) ^ 2)). nra.
Qed.

(** C64 (Properties_detector.v).  With a goniometer on a sphere, the energy that
    is created is at most half the light the goniometer's face reflects back
    (Fresnel), and none if at most half of it is sent to the front. *)
Theorem C64_excess_bound_partial : forall n (rfr tfr rd td st inc : nat -> R) rfrac tfrac rdf tdf r t rl tl,
  (0 < n)%nat -> 0 <= rfrac <= 1 -> 0 <= rdf <= 1 -> 0 <= tdf <= 1 ->
  (forall i, (i < n)%nat -> 0 <= rfr i /\ 0 <= tfr i /\ 0 <= st i /\ rd i + td i + rfr i + tfr i + st i <= 1) ->
  let col (f : nat -> R) := map f (seq 0 n) in
  distribute_ambig_traj_weights (col rfr) (col tfr) (Some rfrac) tfrac rdf tdf (col rd) (col td) (col st) (col inc) sphere true
    = Some (r, t, rl, tl) ->
  r + t <= 1 + / INR n * (over n rfr / 2) /\ (rfrac <= 1 / 2 -> r + t <= 1).
Proof.
  intros n rfr tfr rd td st inc rfrac tfrac rdf tdf r t rl tl Hn Hr Hd Ht Hw col E.
  unfold distribute_ambig_traj_weights in E. cbv zeta in E. inversion E as [[E1 E2 E3 E4]]. clear E E3 E4.
  subst col. cbv beta in *.
  assert (L : length (map rfr (seq 0 n)) = n) by (now rewrite map_length, seq_length). rewrite L, !Rsum_div.
  assert (M3 : forall (f : R -> R -> R -> R) (a b c : nat -> R) l, map3 f (map a l) (map b l) (map c l) = map (fun i => f (a i) (b i) (c i)) l).
  { intros f a b c l. induction l as [|x l IH]; [reflexivity|]. cbn. now rewrite IH. }
  assert (M2 : forall (f : R -> R -> R) (a b : nat -> R) l, map2 f (map a l) (map b l) = map (fun i => f (a i) (b i)) l).
  { intros f a b l. induction l as [|x l IH]; [reflexivity|]. cbn. now rewrite IH. }
  rewrite !map_map, !M3, !M2.
  assert (Hpos : 0 < / INR n) by (apply Rinv_0_lt_compat, (lt_INR 0); lia).
  assert (A : forall (f g : nat -> R) c, (forall i, (i < n)%nat -> f i + g i <= c + rfr i / 2) ->
              Rsum (map f (seq 0 n)) + Rsum (map g (seq 0 n)) <= INR n * c + over n rfr / 2).
  { intros f g c H. unfold over. rewrite !Rsum_total.
    assert (G : forall m, (forall i, In i m -> f i + g i <= c + rfr i / 2) ->
      total (map f m) + total (map g m) <= INR (length m) * c + total (map rfr m) / 2).
    { induction m as [|x m IH]; intros Hm; [cbn; lra|]. change (length (x :: m)) with (S (length m)). rewrite S_INR. cbn [map total].
      pose proof (IH (fun i Hi => Hm i (or_intror Hi))). pose proof (Hm x (or_introl eq_refl)). lra. }
    specialize (G (seq 0 n)). rewrite seq_length in G. apply G. intros i Hi. apply in_seq in Hi. apply H. lia. }
  assert (B : forall (f g : nat -> R) c, (forall i, (i < n)%nat -> f i + g i <= c) ->
              Rsum (map f (seq 0 n)) + Rsum (map g (seq 0 n)) <= INR n * c).
  { intros f g c H. rewrite !Rsum_total.
    assert (G : forall m, (forall i, In i m -> f i + g i <= c) -> total (map f m) + total (map g m) <= INR (length m) * c).
    { induction m as [|x m IH]; intros Hm; [cbn; lra|]. change (length (x :: m)) with (S (length m)). rewrite S_INR. cbn [map total].
      pose proof (IH (fun i Hi => Hm i (or_intror Hi))). pose proof (Hm x (or_introl eq_refl)). lra. }
    specialize (G (seq 0 n)). rewrite seq_length in G. apply G. intros i Hi. apply in_seq in Hi. apply H. lia. }
  assert (C : forall i, (i < n)%nat -> rd i + rfr i * rfrac * rdf + 0 <= rd i + rfr i * rfrac).
  { intros i Hi. destruct (Hw i Hi) as (W1 & _). assert (0 <= rfr i * rfrac) by (apply Rmult_le_pos; lra). nra. }
  assert (D : forall i, (i < n)%nat -> td i + 1 / 2 * (tfr i + rfr i + st i) * tdf <= td i + 1 / 2 * (tfr i + rfr i + st i)).
  { intros i Hi. destruct (Hw i Hi) as (W1 & W2 & W3 & _). nra. }
  rewrite <- !Rdiv_plus_distr. split.
  - match goal with |- ?X / INR n <= _ => assert (Q : X <= INR n * 1 + over n rfr / 2) end.
    { apply A. intros i Hi. pose proof (C i Hi). pose proof (D i Hi). destruct (Hw i Hi) as (W1 & W2 & W3 & W4).
      assert (rfr i * rfrac <= rfr i) by nra. lra. }
    apply (Rmult_le_compat_r (/ INR n)) in Q; [|lra]. eapply Rle_trans; [exact Q|]. right. field. apply not_0_INR. lia.
  - intros Hh. match goal with |- ?X / INR n <= _ => assert (Q : X <= INR n * 1) end.
    { apply B. intros i Hi. pose proof (C i Hi). pose proof (D i Hi). destruct (Hw i Hi) as (W1 & W2 & W3 & W4).
      assert (rfr i * rfrac <= rfr i * (1 / 2)) by (apply Rmult_le_compat_l; lra). lra. }
    apply (Rmult_le_compat_r (/ INR n)) in Q; [|lra]. eapply Rle_trans; [exact Q|]. right. field. apply not_0_INR. lia.
Qed.
Print Assumptions C64_excess_bound_partial.
Example C64_partial_case : exists r t rl tl,
  distribute_ambig_traj_weights [1 / 2] [0] (Some (1 / 2)) None 1 1 [1 / 2] [0] [0] [0] sphere true = Some (r, t, rl, tl) /\ r + t = 1.
Proof. do 4 eexists. split; [reflexivity|]. cbn. lra. Qed.

(** C87 (Properties_reflection.v).  What the narrow distribution is: times the
    diameter, a Gaussian in mean/d about 1 with standard deviation
    1/sqrt(t+1), up to the normalising factor of the grid; so diameters whose
    reciprocals are equally far from the mean's have weights inversely
    proportional to the diameters. *)
Theorem C87_reciprocal_partial : forall factorial g mean t, Spec_scatter.ascending g -> (forall d, In d g -> 0 < d) ->
  hd 0 g < last g 0 -> 100 < t -> mean <> 0 ->
  exists ws c, size_distribution factorial g mean t = map Some ws /\ length ws = length g /\ 0 < c
    /\ (forall i, (i < length g)%nat ->
          nth i g 0 * nth i ws 0 = c * exp (- (t + 1) * (mean / nth i g 0 - 1) ^ 2 / 2))
    /\ (forall i j, (i < length g)%nat -> (j < length g)%nat ->
          mean / nth i g 0 - 1 = - (mean / nth j g 0 - 1) -> nth i g 0 * nth i ws 0 = nth j g 0 * nth j ws 0).
Proof.
  intros factorial g mean t Ha Hd Hl Ht Hm.
  destruct (narrow_dist factorial g mean t Ha Hd Hl Ht) as (ws & c & E & L & _ & _ & Hc & V).
  assert (St : 0 < sqrt (t + 1)) by (apply sqrt_lt_R0; lra).
  assert (Sp : 0 < sqrt (2 * PI)) by (apply sqrt_lt_R0; pose proof PI_RGT_0; lra).
  assert (K : forall i, (i < length g)%nat ->
          nth i g 0 * nth i ws 0 = (c * (sqrt (t + 1) / sqrt (2 * PI))) * exp (- (t + 1) * (mean / nth i g 0 - 1) ^ 2 / 2)).
  { intros i Hi. rewrite V by exact Hi. set (d := nth i g 0). assert (Dp : 0 < d) by (apply Hd, nth_In, Hi).
    unfold narrow. cbv zeta.
    assert (Q : (d / sqrt (t + 1)) ^ 2 = d ^ 2 / (t + 1)).
    { unfold Rdiv. rewrite Rpow_mult_distr. f_equal. rewrite pow_inv. f_equal. cbn [pow]. rewrite Rmult_1_r. apply sqrt_sqrt. lra. }
    rewrite Q.
    replace (- (d - mean) ^ 2 / (2 * (d ^ 2 / (t + 1)))) with (- (t + 1) * (mean / d - 1) ^ 2 / 2) by (field; lra).
    replace (sqrt (2 * PI * (d ^ 2 / (t + 1)))) with (sqrt (2 * PI) * (d / sqrt (t + 1))).
    2:{ rewrite (sqrt_mult_alt (2 * PI) (d ^ 2 / (t + 1))) by (pose proof PI_RGT_0; lra). f_equal. rewrite sqrt_div_alt by lra. f_equal. rewrite sqrt_pow2 by lra. reflexivity. }
    field. repeat split; lra. }
  exists ws, (c * (sqrt (t + 1) / sqrt (2 * PI))). split; [exact E|]. split; [exact L|].
  split; [apply Rmult_lt_0_compat; [exact Hc|now apply Rdiv_lt_0_compat]|]. split; [exact K|].
  intros i j Hi Hj Hij. rewrite (K i Hi), (K j Hj), Hij. do 2 f_equal. f_equal. ring.
Qed.
Print Assumptions C87_reciprocal_partial.
Example C87_partial_case : Spec_scatter.ascending [2 / 3; 1; 2] /\ 1 / (2 / 3) - 1 = - (1 / 2 - 1).
Proof. split; [intros [|[|[|i]]] H; cbn in *; try lra; lia|field]. Qed.

(** C94 (Properties_bulk.v).  From the exit positions, calc_pdf raises no error
    when every trajectory scattered out with some weight leaves off the equator;
    from the directions, when each of them also has a weight. *)
Theorem C94_no_error_partial : forall bw n z radius rw tw ri ti k, one_exit n ri ti ->
  (forall i, (i < n)%nat -> scattered_out ri ti i -> exit_weight rw tw ri ti i <> 0) ->
  ((forall i, (i < n)%nat -> scattered_out ri ti i -> z i <> 0) ->
     exists p after, pdf_call bw n z radius rw tw ri ti None = Ok (p, after))
  /\ ((forall i, (i < n)%nat -> scattered_out ri ti i -> nth (ri i + ti i - 1) (k i) 0 <> 0) ->
     exists p after, pdf_call bw n z radius rw tw ri ti (Some k) = Ok (p, after)).
Proof.
  intros bw n z radius rw tw ri ti k Ho Hw.
  assert (G : forall kz, (forall e, pdf_call bw n z radius rw tw ri ti kz = Err e -> e = ValueError) ).
  { intros kz e. unfold pdf_call, calc_pdf, gaussian_kde. cbv zeta.
    match goal with |- (match ?l with _ => _ end) = _ -> _ => destruct l as [|? ?]; [discriminate|] end.
    match goal with |- bind (if ?b then _ else _) _ = _ -> _ => destruct b end; cbn [bind]; intros E; [now injection E|discriminate]. }
  split; intros Hz.
  - destruct (pdf_call bw n z radius rw tw ri ti None) as [[p after]|e] eqn:E; [eauto|exfalso].
    pose proof (G None e E) as Ge. subst e. apply (C94_equator_refuted bw n z radius rw tw ri ti Ho) in E as [_ (i & Hi & Hs & _ & H0)].
    exact (Hz i Hi Hs H0).
  - destruct (pdf_call bw n z radius rw tw ri ti (Some k)) as [[p after]|e] eqn:E; [eauto|exfalso].
    pose proof (G (Some k) e E) as Ge. subst e. apply (C94_zero_weight_refuted bw n z radius rw tw ri ti k Ho Hz) in E as (i & Hi & Hs & H0).
    exact (Hw i Hi Hs H0).
Qed.
Print Assumptions C94_no_error_partial.

(** C109 (Properties_fields.v).  The angles of the events at which no trajectory
    at all is totally reflected (the row before each one's first total
    reflection; the first row for the others) are left alone. *)
Theorem C109_other_rows_partial : forall amp n_sample wavelen trs fss angs j u r th ph,
  calc_fields amp n_sample wavelen true trs = Ok (fss, angs) ->
  nth_error trs j = Some u -> nth_error (ft_angles u) r = Some (th, ph) ->
  (forall t, In t trs -> (argmax_padded (ft_tir t) - 2)%nat <> r) ->
  nth r (nth j angs []) (0, 0, 0, 0) = (cos th, sin th, cos ph, sin ph).
Proof.
  intros amp n_sample wavelen trs fss angs j u r th ph H Hj Hr Hn.
  destruct (calc_fields_tir _ _ _ _ _ _ _ _ H Hj) as [E _].
  assert (Hl : (r < length (map trig (ft_angles u)))%nat).
  { rewrite map_length. apply nth_error_Some. rewrite Hr. discriminate. }
  assert (N : nth r (map trig (ft_angles u)) (0, 0, 0, 0) = (cos th, sin th, cos ph, sin ph)).
  { rewrite nth_map_error, Hr. reflexivity. }
  rewrite E, (overwrite_nth _ _ _ _ _ _ _ _ Hl N).
  replace (existsb (Nat.eqb r) (map tir_row trs)) with false; [reflexivity|].
  symmetry. destruct (existsb (Nat.eqb r) (map tir_row trs)) eqn:X; [|reflexivity]. exfalso.
  apply existsb_exists in X as (x & Hx & Q). apply Nat.eqb_eq in Q. subst x. apply in_map_iff in Hx as (t & Et & Ht).
  exact (Hn t Ht Et).
Qed.
Print Assumptions C109_other_rows_partial.
Example C109_partial_case :
  (argmax_padded [false; false; true] - 2)%nat = 1%nat /\ (argmax_padded [false; false; false] - 2)%nat = 0%nat.
Proof. split; reflexivity. Qed.
