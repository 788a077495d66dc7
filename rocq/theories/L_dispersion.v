(** The built-in dispersion formulas on the visible range. *)
From Coq Require Import Lra Lia Psatz.
From Verif Require Import L_num M_refractive_index Spec_optics.
Open Scope R_scope.

Definition sell (A b u : R) : R := A * u / (u - b).

Lemma sell_decr : forall A b u v, 0 < A -> 0 < b -> u < v -> (b < u \/ v < b) ->
  sell A b v < sell A b u.
Proof.
  intros A b u v HA Hb Huv Hs. unfold sell.
  assert (E : A * u / (u - b) - A * v / (v - b) = A * b * (v - u) / ((u - b) * (v - b))).
  { field. split; destruct Hs; lra. }
  assert (0 < A * b * (v - u) / ((u - b) * (v - b))); [|lra].
  apply Rdiv_lt_0_compat; [repeat apply Rmult_lt_0_compat; lra|].
  destruct Hs; nra.
Qed.

Lemma sell_lo : forall A b u lo, b < u -> lo * (u - b) <= A * u -> lo <= sell A b u.
Proof.
  intros A b u lo Hu H. unfold sell. apply (Rmult_le_reg_r (u - b)); [lra|].
  unfold Rdiv. rewrite Rmult_assoc, Rinv_l by lra. lra.
Qed.
Lemma sell_hi : forall A b u hi, b < u -> A * u <= hi * (u - b) -> sell A b u <= hi.
Proof.
  intros A b u hi Hu H. unfold sell. apply (Rmult_le_reg_r (u - b)); [lra|].
  unfold Rdiv. rewrite Rmult_assoc, Rinv_l by lra. lra.
Qed.
Lemma sell_lo_ir : forall A b u lo, u < b -> A * u <= lo * (u - b) -> lo <= sell A b u.
Proof.
  intros A b u lo Hu H. unfold sell. apply (Rmult_le_reg_r (b - u)); [lra|].
  replace (A * u / (u - b) * (b - u)) with (- (A * u)) by (field; lra). lra.
Qed.
Lemma sell_hi_ir : forall A b u, 0 <= A -> 0 <= u < b -> sell A b u <= 0.
Proof.
  intros A b u HA Hu. unfold sell. apply (Rmult_le_reg_r (b - u)); [lra|].
  replace (A * u / (u - b) * (b - u)) with (- (A * u)) by (field; lra).
  pose proof (Rmult_le_pos A u HA (proj1 Hu)). lra.
Qed.

Lemma sellmeier_sell : forall A b w, w * w <> b -> sellmeier A b w = Some (sell A b (w * w)).
Proof.
  intros A b w H. unfold sellmeier, ndiv, sell.
  rewrite (proj2 (Reqb_false _ _)) by lra. f_equal. unfold Rdiv. ring.
Qed.

Lemma ndiv_some : forall a b, b <> 0 -> ndiv a b = Some (a / b).
Proof. intros. unfold ndiv. rewrite (proj2 (Reqb_false _ _)) by assumption. reflexivity. Qed.

Lemma nsqrt_some : forall x, 0 <= x -> nsqrt x = Some (sqrt x).
Proof. intros. unfold nsqrt. rewrite (proj2 (Rltb_false _ _)) by assumption. reflexivity. Qed.

Lemma visible_sq : forall w, visible w -> 0.1444 <= w * w <= 0.64.
Proof. unfold visible. intros w H. nra. Qed.

(** The two facts proved for each material. *)
Definition sane (f : R -> num) : Prop :=
  forall w, visible w -> exists v, f w = Some v /\ 1 <= v <= 3.2.
Definition normal_dispersion (f : R -> num) : Prop :=
  forall w w' v v', visible w -> visible w' -> w < w' ->
    f w = Some v -> f w' = Some v' -> v' < v.

Lemma good_sqrt : forall f g,
  (forall w, visible w -> f w = nsqrt (g (w * w))) ->
  (forall u, 0.1444 <= u <= 0.64 -> 1 <= g u <= 10.24) ->
  (forall u v, 0.1444 <= u -> u < v -> v <= 0.64 -> g v < g u) ->
  sane f /\ normal_dispersion f.
Proof.
  intros f g Hf Hb Hd. split.
  - intros w Hw. pose proof (Hb _ (visible_sq w Hw)) as B.
    exists (sqrt (g (w * w))). rewrite Hf by assumption. split; [apply nsqrt_some; lra|].
    split.
    + rewrite <- sqrt_1. apply sqrt_le_1_alt. lra.
    + replace 3.2 with (sqrt (3.2 * 3.2)) by (apply sqrt_square; lra).
      apply sqrt_le_1_alt. lra.
  - intros w w' v v' Hw Hw' Hlt E E'. rewrite Hf in E, E' by assumption.
    pose proof (Hb _ (visible_sq w Hw)) as B. pose proof (Hb _ (visible_sq w' Hw')) as B'.
    rewrite nsqrt_some in E, E' by lra. injection E as <-. injection E' as <-.
    apply sqrt_lt_1_alt. split; [lra|].
    pose proof (visible_sq w Hw). pose proof (visible_sq w' Hw').
    apply Hd; [lra | unfold visible in *; nra | lra].
Qed.

Lemma good_plain : forall f g,
  (forall w, visible w -> f w = Some (g (w * w))) ->
  (forall u, 0.1444 <= u <= 0.64 -> 1 <= g u <= 3.2) ->
  (forall u v, 0.1444 <= u -> u < v -> v <= 0.64 -> g v < g u) ->
  sane f /\ normal_dispersion f.
Proof.
  intros f g Hf Hb Hd. split.
  - intros w Hw. pose proof (Hb _ (visible_sq w Hw)) as B.
    exists (g (w * w)). rewrite Hf by assumption. auto.
  - intros w w' v v' Hw Hw' Hlt E E'. rewrite Hf in E, E' by assumption.
    injection E as <-. injection E' as <-.
    pose proof (visible_sq w Hw). pose proof (visible_sq w' Hw').
    apply Hd; [lra | unfold visible in *; nra | lra].
Qed.

Ltac vis w H := pose proof (visible_sq w H).

Lemma water_good : sane n_water /\ normal_dispersion n_water.
Proof.
  apply (good_sqrt _ (fun u => sell 5.684027565e-1 5.101829712e-3 u
    + sell 1.726177391e-1 1.821153936e-2 u + sell 2.086189578e-2 2.620722293e-2 u
    + sell 1.130748688e-1 1.069792721e1 u + 1)).
  - intros w H. vis w H. unfold n_water. rewrite !sellmeier_sell by lra. reflexivity.
  - intros u Hu.
    pose proof (sell_lo 5.684027565e-1 5.101829712e-3 u 0.1 ltac:(lra) ltac:(lra)).
    pose proof (sell_hi 5.684027565e-1 5.101829712e-3 u 1 ltac:(lra) ltac:(lra)).
    pose proof (sell_lo 1.726177391e-1 1.821153936e-2 u 0 ltac:(lra) ltac:(lra)).
    pose proof (sell_hi 1.726177391e-1 1.821153936e-2 u 1 ltac:(lra) ltac:(lra)).
    pose proof (sell_lo 2.086189578e-2 2.620722293e-2 u 0 ltac:(lra) ltac:(lra)).
    pose proof (sell_hi 2.086189578e-2 2.620722293e-2 u 1 ltac:(lra) ltac:(lra)).
    pose proof (sell_lo_ir 1.130748688e-1 1.069792721e1 u (-0.1) ltac:(lra) ltac:(lra)).
    pose proof (sell_hi_ir 1.130748688e-1 1.069792721e1 u ltac:(lra) ltac:(lra)).
    lra.
  - intros u v H1 H2 H3.
    pose proof (sell_decr 5.684027565e-1 5.101829712e-3 u v ltac:(lra) ltac:(lra) H2 ltac:(lra)).
    pose proof (sell_decr 1.726177391e-1 1.821153936e-2 u v ltac:(lra) ltac:(lra) H2 ltac:(lra)).
    pose proof (sell_decr 2.086189578e-2 2.620722293e-2 u v ltac:(lra) ltac:(lra) H2 ltac:(lra)).
    pose proof (sell_decr 1.130748688e-1 1.069792721e1 u v ltac:(lra) ltac:(lra) H2 ltac:(lra)).
    lra.
Qed.

Lemma polystyrene_good : sane n_polystyrene /\ normal_dispersion n_polystyrene.
Proof.
  apply (good_sqrt _ (fun u => sell 1.4435 0.020216 u + 1)).
  - intros w H. vis w H. unfold n_polystyrene. rewrite !sellmeier_sell by lra. reflexivity.
  - intros u Hu.
    pose proof (sell_lo 1.4435 0.020216 u 0 ltac:(lra) ltac:(lra)).
    pose proof (sell_hi 1.4435 0.020216 u 3 ltac:(lra) ltac:(lra)). lra.
  - intros u v H1 H2 H3.
    pose proof (sell_decr 1.4435 0.020216 u v ltac:(lra) ltac:(lra) H2 ltac:(lra)). lra.
Qed.

Lemma fused_silica_good : sane n_fused_silica /\ normal_dispersion n_fused_silica.
Proof.
  apply (good_sqrt _ (fun u => 1 + sell 0.6961663 (0.0684043 ^ 2) u
    + sell 0.4079426 (0.1162414 ^ 2) u + sell 0.8974794 (9.896161 ^ 2) u)).
  - intros w H. vis w H. unfold n_fused_silica. rewrite !sellmeier_sell by lra. reflexivity.
  - intros u Hu.
    pose proof (sell_lo 0.6961663 (0.0684043 ^ 2) u 0.1 ltac:(lra) ltac:(lra)).
    pose proof (sell_hi 0.6961663 (0.0684043 ^ 2) u 1 ltac:(lra) ltac:(lra)).
    pose proof (sell_lo 0.4079426 (0.1162414 ^ 2) u 0 ltac:(lra) ltac:(lra)).
    pose proof (sell_hi 0.4079426 (0.1162414 ^ 2) u 1 ltac:(lra) ltac:(lra)).
    pose proof (sell_lo_ir 0.8974794 (9.896161 ^ 2) u (-0.1) ltac:(lra) ltac:(lra)).
    pose proof (sell_hi_ir 0.8974794 (9.896161 ^ 2) u ltac:(lra) ltac:(lra)). lra.
  - intros u v H1 H2 H3.
    pose proof (sell_decr 0.6961663 (0.0684043 ^ 2) u v ltac:(lra) ltac:(lra) H2 ltac:(lra)).
    pose proof (sell_decr 0.4079426 (0.1162414 ^ 2) u v ltac:(lra) ltac:(lra) H2 ltac:(lra)).
    pose proof (sell_decr 0.8974794 (9.896161 ^ 2) u v ltac:(lra) ltac:(lra) H2 ltac:(lra)).
    lra.
Qed.

Lemma zirconia_good : sane n_zirconia /\ normal_dispersion n_zirconia.
Proof.
  apply (good_sqrt _ (fun u => 1 + sell 3.3037 (0.1987971 ^ 2) u)).
  - intros w H. vis w H. unfold n_zirconia. rewrite !sellmeier_sell by lra. reflexivity.
  - intros u Hu.
    pose proof (sell_lo 3.3037 (0.1987971 ^ 2) u 0 ltac:(lra) ltac:(lra)).
    pose proof (sell_hi 3.3037 (0.1987971 ^ 2) u 9 ltac:(lra) ltac:(lra)). lra.
  - intros u v H1 H2 H3.
    pose proof (sell_decr 3.3037 (0.1987971 ^ 2) u v ltac:(lra) ltac:(lra) H2 ltac:(lra)). lra.
Qed.

Lemma brookite_good : sane n_brookite /\ normal_dispersion n_brookite.
Proof.
  apply (good_sqrt _ (fun u => 2.9858 + sell 2.1036 (0.287 ^ 2) u - 0.18 * u + 1)).
  - intros w H. vis w H. unfold n_brookite. rewrite !sellmeier_sell by lra.
    cbn [nbind]. f_equal. ring.
  - intros u Hu.
    pose proof (sell_lo 2.1036 (0.287 ^ 2) u 0 ltac:(lra) ltac:(lra)).
    pose proof (sell_hi 2.1036 (0.287 ^ 2) u 5 ltac:(lra) ltac:(lra)). lra.
  - intros u v H1 H2 H3.
    pose proof (sell_decr 2.1036 (0.287 ^ 2) u v ltac:(lra) ltac:(lra) H2 ltac:(lra)). lra.
Qed.

Lemma inv_decr : forall a b u v, 0 < a -> b < u -> u < v -> a / (v - b) < a / (u - b).
Proof.
  intros. unfold Rdiv. apply Rmult_lt_compat_l; [assumption|].
  apply Rinv_lt_contravar; [apply Rmult_lt_0_compat; lra | lra].
Qed.
Lemma inv_bounds : forall a b u hi, 0 < a -> b < u -> a <= hi * (u - b) ->
  0 < a / (u - b) <= hi.
Proof.
  intros. split; [apply Rdiv_lt_0_compat; lra|].
  apply (Rmult_le_reg_r (u - b)); [lra|].
  unfold Rdiv. rewrite Rmult_assoc, Rinv_l by lra. lra.
Qed.

Lemma rutile_good : sane n_rutile /\ normal_dispersion n_rutile.
Proof.
  apply (good_sqrt _ (fun u => 5.913 + 0.2441 / (u - 0.0803))).
  - intros w H. vis w H. unfold n_rutile. rewrite ndiv_some by lra. reflexivity.
  - intros u Hu. pose proof (inv_bounds 0.2441 0.0803 u 4 ltac:(lra) ltac:(lra) ltac:(lra)). lra.
  - intros u v H1 H2 H3. pose proof (inv_decr 0.2441 0.0803 u v ltac:(lra) ltac:(lra) H2). lra.
Qed.

Lemma soda_lime_good : sane n_soda_lime /\ normal_dispersion n_soda_lime.
Proof.
  apply (good_plain _ (fun u => 1.5130 - 0.003169 * u + 0.003962 / (u - 0))).
  - intros w H. vis w H. unfold n_soda_lime. rewrite ndiv_some by lra.
    cbn [nbind]. rewrite Rminus_0_r. f_equal. ring.
  - intros u Hu. pose proof (inv_bounds 0.003962 0 u 1 ltac:(lra) ltac:(lra) ltac:(lra)). lra.
  - intros u v H1 H2 H3. pose proof (inv_decr 0.003962 0 u v ltac:(lra) ltac:(lra) H2). lra.
Qed.

Lemma inv2_decr : forall a u v, 0 < a -> 0 < u -> u < v -> a / (v * v) < a / (u * u).
Proof.
  intros. unfold Rdiv. apply Rmult_lt_compat_l; [assumption|].
  apply Rinv_lt_contravar; [repeat apply Rmult_lt_0_compat; lra | nra].
Qed.
Lemma inv2_bounds : forall a u hi, 0 < a -> 0 < u -> a <= hi * (u * u) ->
  0 < a / (u * u) <= hi.
Proof.
  intros. assert (0 < u * u) by nra. split; [apply Rdiv_lt_0_compat; lra|].
  apply (Rmult_le_reg_r (u * u)); [lra|].
  unfold Rdiv. rewrite Rmult_assoc, Rinv_l by lra. lra.
Qed.

Lemma ethanol_good : sane n_ethanol /\ normal_dispersion n_ethanol.
Proof.
  apply (good_plain _ (fun u => 1.35265 + 0.00306 / (u - 0) + 0.00002 / (u * u))).
  - intros w H. vis w H. unfold n_ethanol. rewrite !ndiv_some by (cbn; nra).
    cbn [nbind]. do 2 f_equal; [f_equal|]; f_equal; cbn; ring.
  - intros u Hu. pose proof (inv_bounds 0.00306 0 u 0.5 ltac:(lra) ltac:(lra) ltac:(lra)).
    pose proof (inv2_bounds 0.00002 u 0.5 ltac:(lra) ltac:(lra) ltac:(nra)). lra.
  - intros u v H1 H2 H3. pose proof (inv_decr 0.00306 0 u v ltac:(lra) ltac:(lra) H2).
    pose proof (inv2_decr 0.00002 u v ltac:(lra) ltac:(lra) H2). lra.
Qed.

Lemma anatase_good : sane n_anatase /\ normal_dispersion n_anatase.
Proof.
  apply (good_plain _ (fun u => 2.1526 + 4.1155e-2 / (u - 0) + 2.1798e-3 / (u * u))).
  - intros w H. vis w H. unfold n_anatase. rewrite !ndiv_some by nra.
    cbn [nbind]. do 2 f_equal; [f_equal|]; f_equal; ring.
  - intros u Hu. pose proof (inv_bounds 4.1155e-2 0 u 0.5 ltac:(lra) ltac:(lra) ltac:(lra)).
    pose proof (inv2_bounds 2.1798e-3 u 0.5 ltac:(lra) ltac:(lra) ltac:(nra)). lra.
  - intros u v H1 H2 H3. pose proof (inv_decr 4.1155e-2 0 u v ltac:(lra) ltac:(lra) H2).
    pose proof (inv2_decr 2.1798e-3 u v ltac:(lra) ltac:(lra) H2). lra.
Qed.

Lemma vacuum_one : forall w, w <> 0 -> n_vacuum w = Some 1.
Proof. intros w H. unfold n_vacuum. rewrite ndiv_some by assumption. f_equal. field. assumption. Qed.

(** PMMA: the polynomial in [1/w^2] is increasing. *)
Definition pmma_poly (t : R) : R :=
  2.3678e-2 * t - 4.2137e-3 * t ^ 2 + 7.3417e-4 * t ^ 3 - 4.5042e-5 * t ^ 4.

Lemma pmma_slope : forall t, 1.5 <= t <= 7 ->
  0.003 <= 2.3678e-2 - 8.4274e-3 * t + 2.20251e-3 * t ^ 2 - 1.80168e-4 * t ^ 3.
Proof.
  intros t Ht.
  assert (0 <= (t - 1.5) * (7 - t)) by (apply Rmult_le_pos; lra).
  assert (0 <= (t - 1.5) * ((7 - t) * t)) by (repeat apply Rmult_le_pos; lra).
  assert (0 <= (t - 3) ^ 2) by apply pow2_ge_0.
  assert (0 <= (7 - t) * (t - 3) ^ 2) by (apply Rmult_le_pos; [lra | apply pow2_ge_0]).
  nra.
Qed.

Lemma pmma_poly_incr : forall s t, 1.5 <= s -> s < t -> t <= 7 ->
  0.003 * (t - s) <= pmma_poly t - pmma_poly s.
Proof.
  intros s t Hs Hst Ht.
  destruct (MVT_cor2 pmma_poly
    (fun t => 2.3678e-2 - 8.4274e-3 * t + 2.20251e-3 * t ^ 2 - 1.80168e-4 * t ^ 3) s t Hst)
    as (c & E & Hc).
  - intros c Hc. unfold pmma_poly.
    replace (2.3678e-2 - 8.4274e-3 * c + 2.20251e-3 * c ^ 2 - 1.80168e-4 * c ^ 3)
      with (2.3678e-2 * 1 - 4.2137e-3 * (2 * c ^ 1) + 7.3417e-4 * (3 * c ^ 2)
            - 4.5042e-5 * (4 * c ^ 3)) by lra.
    apply derivable_pt_lim_minus;
      [apply derivable_pt_lim_plus; [apply derivable_pt_lim_minus|]|].
    + apply derivable_pt_lim_scal. apply derivable_pt_lim_id.
    + apply derivable_pt_lim_scal. apply (derivable_pt_lim_pow c 2).
    + apply derivable_pt_lim_scal.
      replace 3 with (INR 3) by (cbn; ring). apply (derivable_pt_lim_pow c 3).
    + apply derivable_pt_lim_scal.
      replace 4 with (INR 4) by (cbn; ring). apply (derivable_pt_lim_pow c 4).
  - rewrite E. apply Rmult_le_compat_r; [lra|]. apply pmma_slope. lra.
Qed.

Lemma pmma_poly_bounds : forall t, 1.5 <= t <= 7 -> 0 <= pmma_poly t <= 1.
Proof.
  intros t Ht.
  assert (L : 0 <= pmma_poly 1.5) by (unfold pmma_poly; lra).
  assert (H : pmma_poly 7 <= 1) by (unfold pmma_poly; lra).
  split.
  - destruct (Req_dec t 1.5) as [->|N]; [assumption|].
    pose proof (pmma_poly_incr 1.5 t ltac:(lra) ltac:(lra) ltac:(lra)). lra.
  - destruct (Req_dec t 7) as [->|N]; [assumption|].
    pose proof (pmma_poly_incr t 7 ltac:(lra) ltac:(lra) ltac:(lra)). lra.
Qed.

Lemma inv_u_range : forall u, 0.1444 <= u <= 0.64 -> 1.5 <= / u <= 7.
Proof.
  intros u Hu. split.
  - apply (Rmult_le_reg_r u); [lra|]. rewrite Rinv_l by lra. lra.
  - apply (Rmult_le_reg_r u); [lra|]. rewrite Rinv_l by lra. lra.
Qed.

Lemma pmma_good : sane n_pmma /\ normal_dispersion n_pmma.
Proof.
  apply (good_sqrt _ (fun u => 2.1778 + 6.1209e-3 * u - 1.5004e-3 * (u * u)
                               + pmma_poly (/ u))).
  - intros w H. vis w H. unfold n_pmma.
    assert (w <> 0) by (unfold visible in H; lra).
    rewrite !ndiv_some by (repeat apply Rmult_integral_contrapositive_currified; assumption).
    cbn [nbind]. f_equal. unfold pmma_poly. field. assumption.
  - intros u Hu. pose proof (pmma_poly_bounds (/ u) (inv_u_range u Hu)). nra.
  - intros u v H1 H2 H3.
    pose proof (inv_u_range u ltac:(lra)). pose proof (inv_u_range v ltac:(lra)).
    assert (L : / v < / u) by (apply Rinv_lt_contravar; [nra | assumption]).
    pose proof (pmma_poly_incr (/ v) (/ u) ltac:(lra) L ltac:(lra)) as K.
    assert (E : / u - / v = (v - u) * (/ u * / v)) by (field; lra).
    rewrite E in K.
    assert (2.25 <= / u * / v) by nra.
    assert (2.25 * (v - u) <= (v - u) * (/ u * / v)) by nra.
    nra.
Qed.
