(** C166: almost all light leaves a film.  Vocabulary in Spec_leave.v,
    Spec_later.v, Spec_enough.v, Spec_direct.v and Spec_mean.v. *)
From Coq Require Import Lra Lia Psatz Reals List.
From Verif Require Import Num Spec Spec_scat Spec_mean Spec_direct Spec_estimate Spec_diffuse Spec_later Spec_enough Spec_leave M_init M_montecarlo M_detector M_simulation M_scat
  L_num L_sampling L_mean L_outcomes L_meta L_meta3 L_meta4 L_pool L_simulation L_estimate L_diffuse L_enough L_later L_leave
  Properties_detector Properties_simulation Properties_direct Properties_estimate Properties_later.
From Coquelicot Require Import Coquelicot.
Import ListNotations.
Open Scope R_scope.

(** With events 2, ..., j+2 scattered as the phase function says, the mean share
    of the trajectories still in the film after event j+2 is at most rate^j. *)
Theorem C166_inside : forall p lo c beta n j spot tmin tmax pmin pmax mu_scat P D,
  0 <= lo <= PI -> List.Forall (fun x => 0 <= x) p -> 0 < total (map (angle_weight p lo) (seq 0 (length p))) ->
  (0 < n)%nat -> 0 < mu_scat -> plain_film P -> (forall n i, 0 <= d_u D n i < 1) ->
  0 < c -> 1 - (p_nmedium P / p_nsample P) ^ 2 <= c ^ 2 -> reaches p lo c beta ->
  let e := S j in
  mean_at_most (n * (3 * e)) (fun t => inside_share (film_run (S e) n spot tmin tmax pmin pmax mu_scat P (with_scatterings p lo e t D)))
    (stay_rate mu_scat (p_thickness P) c beta ^ j).
Proof.
  intros p lo c beta n j spot tmin tmax pmin pmax mu P D Hlo Hp Ht Hn Hmu HP Hu Hc Hcc HR e. assert (HI : 0 < INR n) by now apply lt_0_INR.
  destruct (stay_mean p lo Hlo Hp Ht n j spot tmin tmax pmin pmax mu c beta P D Hn Hmu HP Hu Hc Hcc HR) as (F & HF & M).
  exists F, (stay_rate mu (p_thickness P) c beta ^ j). split; [|split; [exact M|apply Rle_refl]].
  intros t. refine (Rle_trans _ _ _ _ (HF t)).
  pose proof (E_ok p lo j D Hu t) as Hu'.
  destruct (film_known n spot tmin tmax pmin pmax mu P (with_scatterings p lo (S j) t D) Hmu HP Hu' (S e) ltac:(lia)) as [_ K].
  pose proof (still_range (fun i => film_view P (fl_traj (S e) spot tmin tmax pmin pmax mu P (with_scatterings p lo (S j) t D) i)) (seq 0 n)) as Sr.
  cbv zeta in K. fold e in K |- *. destruct K as [(o & Eo & EU & _)|(_ & No & _)].
  - rewrite Eo in EU |- *. cbn [inside_share]. rewrite EU. apply Rle_refl.
  - set (r := film_run _ _ _ _ _ _ _ _ _ _) in *. clearbody r. assert (Z : inside_share r = 0).
    { destruct r as [[o|]|e']; [exfalso; now apply (No o)|reflexivity|reflexivity]. }
    rewrite Z. apply Rmult_le_pos; [apply Sr|left; now apply Rinv_0_lt_compat].
Qed.
Print Assumptions C166_inside.

(** The light that more events would let through: its mean is at most rate^j,
    and it is above eps with probability at most rate^j / eps. *)
Theorem C166_let_through : forall p lo c beta n j more spot tmin tmax pmin pmax mu_scat P D,
  0 <= lo <= PI -> List.Forall (fun x => 0 <= x) p -> 0 < total (map (angle_weight p lo) (seq 0 (length p))) ->
  (0 < n)%nat -> 0 < mu_scat -> plain_film P -> (forall n i, 0 <= d_u D n i < 1) ->
  0 < c -> 1 - (p_nmedium P / p_nsample P) ^ 2 <= c ^ 2 -> reaches p lo c beta ->
  let e := S j in (S e <= more)%nat ->
  let run k t := film_run k n spot tmin tmax pmin pmax mu_scat P (with_scatterings p lo e t D) in
  let gain t := (front_of (run more t) - front_of (run (S e) t)) + (back_of (run more t) - back_of (run (S e) t)) in
  let rate := stay_rate mu_scat (p_thickness P) c beta in
  (forall t, 0 <= gain t) /\ mean_at_most (n * (3 * e)) gain (rate ^ j)
  /\ forall eps, 0 < eps -> rare (n * (3 * e)) (fun t => eps <= gain t) (rate ^ j / eps).
Proof.
  intros p lo c beta n j more spot tmin tmax pmin pmax mu P D Hlo Hp Ht Hn Hmu HP Hu Hc Hcc HR e He run gain rate. assert (HI : 0 < INR n) by now apply lt_0_INR.
  destruct (stay_mean p lo Hlo Hp Ht n j spot tmin tmax pmin pmax mu c beta P D Hn Hmu HP Hu Hc Hcc HR) as (F & HF & M).
  fold e in HF, M. fold rate in M.
  assert (Q : forall t, 0 <= gain t /\ gain t <= F t /\ 0 <= F t).
  { intros t. pose proof (E_ok p lo j D Hu t) as Hu'. fold e in Hu'. specialize (HF t).
    destruct (film_more (S e) more n spot tmin tmax pmin pmax mu P (with_scatterings p lo e t D) ltac:(lia) Hn Hmu HP Hu')
      as (x & y & u & q & z & X1 & X2 & X3 & X4 & X5 & X6 & X7 & Y1 & Y2 & _).
    destruct (fl_split (S e) spot tmin tmax pmin pmax mu P ltac:(lia) Hmu HP n _ Hn Hu') as [E1 E2].
    destruct (fl_split more spot tmin tmax pmin pmax mu P ltac:(lia) Hmu HP n _ Hn Hu') as [E1' E2'].
    unfold gain, run. rewrite E1, E2, E1', E2', Y1, Y2.
    pose proof (still_range (fun i => film_view P (fl_traj (S e) spot tmin tmax pmin pmax mu P (with_scatterings p lo e t D) i)) (seq 0 n)) as Sr.
    set (S1 := total (map (fun i => still (film_view P (fl_traj (S e) spot tmin tmax pmin pmax mu P (with_scatterings p lo e t D) i))) (seq 0 n))) in *.
    set (A := total (map (fun i => c_rp P false (film_view P (fl_traj (S e) spot tmin tmax pmin pmax mu P (with_scatterings p lo e t D) i))) (seq 0 n))).
    set (B := total (map (fun i => c_tp P false (film_view P (fl_traj (S e) spot tmin tmax pmin pmax mu P (with_scatterings p lo e t D) i))) (seq 0 n))).
    assert (G : (A + x) / INR n - A / INR n + ((B + y) / INR n - B / INR n) = (x + y) / INR n) by (field; lra). rewrite G.
    assert (Mn : forall s t, s <= t -> s / INR n <= t / INR n) by (intros s s' H; apply Rmult_le_compat_r; [left; now apply Rinv_0_lt_compat|exact H]).
    split; [apply Rmult_le_pos; [lra|left; now apply Rinv_0_lt_compat]|]. split.
    - refine (Rle_trans _ _ _ _ HF). apply Mn. lra.
    - refine (Rle_trans _ _ _ _ HF). apply Rmult_le_pos; [apply Sr|left; now apply Rinv_0_lt_compat]. }
  split; [intros t; apply Q|]. split.
  - exists F, (rate ^ j). split; [intros t; apply Q|]. split; [exact M|apply Rle_refl].
  - intros eps Hep. exists (fun t => / eps * F t), (/ eps * rate ^ j). split; [|split; [|split]].
    + intros t. apply Rmult_le_pos; [left; now apply Rinv_0_lt_compat|apply Q].
    + intros t H. destruct (Q t) as (_ & Q2 & _). apply Rmult_le_reg_l with eps; [exact Hep|]. rewrite <- Rmult_assoc, Rinv_r by lra. lra.
    + apply is_mean_scal, M.
    + unfold Rdiv. rewrite Rmult_comm. apply Rle_refl.
Qed.
Print Assumptions C166_let_through.

(** The bound tends to 0: however small the share that may stay, enough events
    bring it there. *)
Theorem C166_converges : forall p lo c beta mu_scat d,
  0 <= lo <= PI -> List.Forall (fun x => 0 <= x) p -> 0 < total (map (angle_weight p lo) (seq 0 (length p))) ->
  0 < mu_scat -> 0 < d -> 0 < c -> 0 < beta -> reaches p lo c beta ->
  let rate := stay_rate mu_scat d c beta in
  0 <= rate < 1 /\ forall eps, 0 < eps -> exists J, forall j, (J <= j)%nat -> rate ^ j < eps.
Proof.
  intros p lo c beta mu d Hlo Hp Ht Hmu Hd Hc Hb HR rate. pose proof (reaches_le_1 p lo Hlo Hp Ht c beta HR) as B1.
  assert (K : 0 < exp (- (mu * d / c)) < 1).
  { split; [apply exp_pos|]. rewrite <- exp_0 at 1. apply exp_increasing. assert (0 < mu * d / c) by (apply Rdiv_lt_0_compat; [apply Rmult_lt_0_compat; lra|lra]). lra. }
  assert (R0 : 0 <= rate < 1) by (unfold rate, stay_rate; split; nra).
  split; [exact R0|]. intros eps He. destruct (pow_lt_1_zero rate ltac:(rewrite Rabs_pos_eq; lra) eps He) as [J HJ]. exists J. intros j Hj.
  specialize (HJ j ltac:(lia)). rewrite Rabs_pos_eq in HJ by (apply pow_le; lra). exact HJ.
Qed.
Print Assumptions C166_converges.

Lemma total_ge_one {A} (f : A -> R) l i : In i l -> (forall k, In k l -> 0 <= f k) -> f i <= total (map f l).
Proof.
  induction l as [|a l IH]; intros Hi H; [contradiction|]. cbn [map total]. pose proof (H a (or_introl eq_refl)) as Ha.
  assert (Hl : 0 <= total (map f l)) by (apply total_nonneg_map; intros; apply H; now right).
  destruct Hi as [->|Hi]; [lra|]. pose proof (IH Hi ltac:(intros; apply H; now right)). lra.
Qed.
(** When a phase function reaches the directions beyond c: from every direction
    a to the normal, some angle of the table with a share of at least s turns
    light towards a direction beyond c' > c, on one side or on the other. *)
Theorem C166_reach : forall p lo c c' s,
  0 <= lo <= PI -> List.Forall (fun x => 0 <= x) p -> 0 < total (map (angle_weight p lo) (seq 0 (length p))) ->
  0 < c < c' -> c' <= 1 -> 0 <= s ->
  (forall a, 0 <= a <= PI -> exists i, (i < length p)%nat /\ s <= share (angle_weight p lo) (length p) i
     /\ (c' <= Rabs (cos (a - grid lo PI (length p) i)) \/ c' <= Rabs (cos (a + grid lo PI (length p) i)))) ->
  reaches p lo c (s * ((c' - c) / 2) * (sqrt (c' - c) / (2 * PI))).
Proof.
  intros p lo c c' s Hlo Hp Ht Hc Hc' Hs HA. set (w := sqrt (c' - c) / (2 * PI)).
  assert (P3 : 3 < PI) by (pose proof PI2_3_2; lra).
  assert (Sq : 0 < sqrt (c' - c) <= 1).
  { split; [apply sqrt_lt_R0; lra|]. rewrite <- sqrt_1. apply sqrt_le_1_alt. lra. }
  assert (Hw : 0 < w <= 1 / 2).
  { unfold w. split; [apply Rdiv_lt_0_compat; lra|]. apply Rcomplements.Rle_div_l; lra. }
  set (h := fun z : R => (Rabs (Rabs z - c) + (Rabs z - c)) / 2).
  assert (Hh0 : forall z, 0 <= h z) by (intros z; unfold h; pose proof (Rle_abs (- (Rabs z - c))) as L; rewrite Rabs_Ropp in L; lra).
  assert (Hh1 : forall z, Rabs z - c <= h z) by (intros z; unfold h; pose proof (Rle_abs (Rabs z - c)); lra).
  exists h. split; [|split; [|split]].
  - intros y. unfold h.
    apply (continuous_mult (fun z : R => Rabs (Rabs z - c) + (Rabs z - c)) (fun _ => / 2)); [|apply continuous_const].
    assert (C1 : continuous (fun z : R => Rabs z - c) y) by (apply (continuous_minus Rabs (fun _ => c)); [apply continuous_Rabs|apply continuous_const]).
    apply (continuous_plus (fun z : R => Rabs (Rabs z - c)) (fun z : R => Rabs z - c)); [|exact C1].
    exact (continuous_Rabs_comp (fun z : R => Rabs z - c) y C1).
  - intros z Hz. unfold h. assert (Rabs z <= 1) by (apply Rabs_le; lra).
    destruct (Rle_dec c (Rabs z)); [rewrite (Rabs_pos_eq (Rabs z - c)) by lra; lra|rewrite (Rabs_left (Rabs z - c)) by lra; lra].
  - intros z Hz. unfold h. rewrite (Rabs_left1 (Rabs z - c)) by lra. lra.
  - intros z v Hz Hv. set (a := acos z). assert (Ha : 0 <= a <= PI) by apply acos_bound.
    assert (Cz : z = cos a) by (unfold a; now rewrite cos_acos).
    assert (Sz : sqrt (1 - z ^ 2) = sin a).
    { unfold a. rewrite sin_acos by exact Hz. now rewrite Rsqr_pow2. }
    destruct (HA a Ha) as (i & Hi & Si & Side). set (th := grid lo PI (length p) i) in *. 
    assert (N0 : forall x, 0 <= after_scattering p lo h z x).
    { intros x. unfold after_scattering, average. apply total_nonneg_map. intros k Hk. apply in_seq in Hk.
      apply Rmult_le_pos; [apply share_nonneg; assumption || lia|apply Hh0]. }
    assert (W : exists x0, 0 <= x0 /\ x0 + w <= 1 /\ forall x, x0 < x < x0 + w -> s * ((c' - c) / 2) <= after_scattering p lo h z x).
    { assert (Core : forall x, c' - (c' - c) / 2 <= Rabs (z * cos th + sin a * sin th * cos (2 * PI * x)) -> s * ((c' - c) / 2) <= after_scattering p lo h z x).
      { intros x Hx. unfold after_scattering, average. rewrite Sz.
        apply Rle_trans with (share (angle_weight p lo) (length p) i * h (z * cos th + sin a * sin th * cos (2 * PI * x))).
        - apply Rmult_le_compat; [exact Hs|lra|exact Si|]. refine (Rle_trans _ _ _ _ (Hh1 _)). lra.
        - apply (total_ge_one (fun i => share (angle_weight p lo) (length p) i * h (z * cos (grid lo PI (length p) i) + sin a * sin (grid lo PI (length p) i) * cos (2 * PI * x))) (seq 0 (length p)) i).
          + apply in_seq. lia.
          + intros k Hk. apply in_seq in Hk. apply Rmult_le_pos; [apply share_nonneg; assumption || lia|apply Hh0]. }
      assert (Cs : forall y, 1 - cos y <= y ^ 2 / 2).
      { intros y. replace (cos y) with (1 - 2 * (sin (y / 2) * sin (y / 2))) by (replace y with (2 * (y / 2)) at 3 by field; rewrite cos_2a_sin; ring).
        assert (L : Rabs (sin (y / 2)) <= Rabs (y / 2)).
        { assert (G : forall u, 0 <= u -> Rabs (sin u) <= u).
          { intros u Hu. destruct (Rle_dec u PI) as [L|L].
            - rewrite Rabs_pos_eq by (apply sin_ge_0; lra). destruct (Req_dec u 0) as [->|N]; [rewrite sin_0; lra|left; apply sin_lt_x; lra].
            - assert (Rabs (sin u) <= 1) by (apply Rabs_le, SIN_bound). lra. }
          destruct (Rle_dec 0 (y / 2)) as [L|L]; [rewrite (Rabs_pos_eq (y / 2)) by lra; apply G; lra|].
          rewrite (Rabs_left (y / 2)) by lra. rewrite <- Rabs_Ropp, <- sin_neg. apply G. lra. }
        pose proof (Rabs_pos (sin (y / 2))) as L0. pose proof (pow2_abs (sin (y / 2))) as A1. pose proof (pow2_abs (y / 2)) as A2. cbn [pow] in *. nra. }
      assert (Sa : 0 <= sin a <= 1) by (split; [apply sin_ge_0; lra|apply SIN_bound]).
      assert (Gr : 0 <= th <= PI) by (pose proof (grid_range lo PI (length p) i ltac:(lra) Hi); fold th in H; lra).
      assert (St : 0 <= sin th <= 1) by (split; [apply sin_ge_0; lra|apply SIN_bound]).
      assert (Ww : forall x, 0 < x < w -> (2 * PI * x) ^ 2 <= c' - c).
      { intros x Hx. rewrite <- (sqrt_sqrt (c' - c)) by lra. assert (2 * PI * x <= sqrt (c' - c)).
        { assert (E : sqrt (c' - c) = 2 * PI * w) by (unfold w; field; lra). rewrite E. apply Rmult_le_compat_l; lra. }
        assert (0 <= 2 * PI * x) by (apply Rmult_le_pos; lra). nra. }
      assert (Near : forall k y, c' <= Rabs (z * cos th + k) -> Rabs (y - k) <= (c' - c) / 2 -> c' - (c' - c) / 2 <= Rabs (z * cos th + y)).
      { intros k y H1 H2. pose proof (Rabs_triang (z * cos th + y) (k - y)) as Tr. replace (z * cos th + y + (k - y)) with (z * cos th + k) in Tr by ring.
        rewrite (Rabs_minus_sym k y) in Tr. lra. }
      assert (Bd : forall x, 0 < x < w -> 0 <= sin a * sin th * (1 - cos (2 * PI * x)) <= (c' - c) / 2).
      { intros x Hx. pose proof (Cs (2 * PI * x)) as C1. pose proof (Ww x Hx) as C2. pose proof (COS_bound (2 * PI * x)) as C3.
        assert (0 <= sin a * sin th <= 1) by (split; nra). split; nra. }
      destruct Side as [Sd|Sd].
      - exists 0. split; [lra|]. split; [lra|]. intros x Hx. apply Core. apply (Near (sin a * sin th)).
        + rewrite Cz. rewrite cos_minus in Sd. exact Sd.
        + pose proof (Bd x ltac:(lra)). apply Rabs_le. split; nra.
      - exists (1 / 2). split; [lra|]. split; [lra|]. intros x Hx. apply Core. apply (Near (- (sin a * sin th))).
        + rewrite Cz. rewrite cos_plus in Sd. exact Sd.
        + pose proof (Bd (x - 1 / 2) ltac:(lra)) as Q. replace (2 * PI * x) with (2 * PI * (x - 1 / 2) + PI) by field. rewrite neg_cos.
          apply Rabs_le. split; nra. }
    destruct W as (x0 & W1 & W2 & W3).
    pose proof (ind_integral x0 (x0 + w) (s * ((c' - c) / 2)) ltac:(lra) ltac:(lra)) as I1.
    replace (s * ((c' - c) / 2) * w) with (s * ((c' - c) / 2) * (x0 + w - x0)) by ring.
    refine (is_RInt_le _ _ 0 1 _ _ ltac:(lra) I1 Hv _). intros x Hx.
    destruct (Rltb x0 x) eqn:E1; cbn [andb]; [destruct (Rltb x (x0 + w)) eqn:E2|].
    + apply Rltb_true in E1, E2. apply W3. lra.
    + apply N0.
    + apply N0.
Qed.
Print Assumptions C166_reach.

(** A phase function table of four equal entries, from 0 to pi. *)
Definition even_table : list R := [1; 1; 1; 1].
Example C166_reach_case : 0 < total (map (angle_weight even_table 0) (seq 0 (length even_table)))
  /\ reaches even_table 0 (9 / 20) (1 / 2 * ((1 / 2 - 9 / 20) / 2) * (sqrt (1 / 2 - 9 / 20) / (2 * PI))).
Proof.
  assert (P3 : 3 < PI) by (pose proof PI2_3_2; lra).
  assert (G1 : grid 0 PI 4 1 = PI / 3) by (unfold grid; cbn; field).
  assert (G2 : grid 0 PI 4 2 = PI - PI / 3) by (unfold grid; cbn; field).
  assert (W0 : angle_weight even_table 0 0 = 0) by (unfold angle_weight, even_table, grid; cbn [length nth INR Rmult]; rewrite Rmult_0_l, Rplus_0_l, sin_0; ring).
  assert (W1 : angle_weight even_table 0 1 = sin (PI / 3)) by (unfold angle_weight, even_table; cbn [length nth]; rewrite G1; ring).
  assert (W2 : angle_weight even_table 0 2 = sin (PI / 3)) by (unfold angle_weight, even_table; cbn [length nth]; rewrite G2, sin_PI_x; ring).
  assert (W3 : angle_weight even_table 0 3 = 0).
  { unfold angle_weight, even_table. cbn [length nth]. replace (grid 0 PI 4 3) with PI by (unfold grid; cbn; field). rewrite sin_PI. ring. }
  assert (S3 : 0 < sin (PI / 3)) by (apply sin_gt_0; lra).
  assert (Tt : total (map (angle_weight even_table 0) (seq 0 (length even_table))) = 2 * sin (PI / 3)).
  { change (length even_table) with 4%nat. cbn [seq map total]. rewrite W0, W1, W2, W3. ring. }
  assert (Tp : 0 < total (map (angle_weight even_table 0) (seq 0 (length even_table)))) by (rewrite Tt; lra).
  split; [exact Tp|].
  apply C166_reach; [lra| |exact Tp|lra|lra|lra|].
  - unfold even_table. apply List.Forall_forall. intros x Hx. repeat (destruct Hx as [<-|Hx]; [lra|]). contradiction.
  - assert (Sh : forall k, angle_weight even_table 0 k = sin (PI / 3) -> 1 / 2 <= share (angle_weight even_table 0) (length even_table) k).
    { intros k E. unfold share. rewrite Tt, E. right. field. lra. }
    assert (Co : forall u, - (PI / 3) <= u <= PI / 3 -> 1 / 2 <= Rabs (cos u)).
    { intros u Hu. rewrite <- cos_PI3. apply Rle_trans with (cos u); [|apply Rle_abs].
      destruct (Rle_dec 0 u) as [L|L]; [apply cos_decr_1; lra|]. rewrite <- (cos_neg u). apply cos_decr_1; lra. }
    intros a Ha. change (length even_table) with 4%nat in *. destruct (Rle_dec a (2 * (PI / 3))) as [L|L].
    + exists 1%nat. split; [lia|]. split; [now apply Sh|]. left. rewrite G1. apply Co. lra.
    + exists 2%nat. split; [lia|]. split; [now apply Sh|]. left. rewrite G2. apply Co. lra.
Qed.
(** A film whose light is scattered like this, 100 trajectories. *)
Definition leave_film : params := mk_params 10 1 (11 / 10) film 0 (PI / 2) None None false 20 (1 / 100) (1 / 50) None None None 0 None None.
Example C166_case : plain_film leave_film /\ forall eps, 0 < eps -> exists J, forall j more, (J <= j)%nat -> (S (S j) <= more)%nat ->
  let run k t := film_run k 100 1 0 0 0 (2 * PI) (1 / 10) leave_film (with_scatterings even_table 0 (S j) t half_draws) in
  mean_at_most (100 * (3 * S j)) (fun t => (front_of (run more t) - front_of (run (S (S j)) t)) + (back_of (run more t) - back_of (run (S (S j)) t))) eps.
Proof.
  assert (HP : plain_film leave_film).
  { unfold plain_film, leave_film. cbn [p_boundary p_run p_gonio p_kz0rot p_kz0refl p_nparticle p_zlow p_thickness p_muabs p_nmedium p_nsample p_nfront p_nback].
    do 7 (split; [reflexivity|]). split; [lra|]. split; [lra|]. split; [lra|]. split; intros m E; discriminate. }
  split; [exact HP|]. intros eps He. destruct C166_reach_case as [Tp HR].
  assert (P3 : 3 < PI) by (pose proof PI2_3_2; lra).
  assert (Hp : List.Forall (fun x => 0 <= x) even_table).
  { unfold even_table. apply List.Forall_forall. intros x Hx. repeat (destruct Hx as [<-|Hx]; [lra|]). contradiction. }
  set (b := 1 / 2 * ((1 / 2 - 9 / 20) / 2) * (sqrt (1 / 2 - 9 / 20) / (2 * PI))) in *.
  assert (Hb : 0 < b).
  { unfold b. apply Rmult_lt_0_compat; [lra|]. apply Rdiv_lt_0_compat; [apply sqrt_lt_R0; lra|lra]. }
  destruct (C166_converges even_table 0 (9 / 20) b (1 / 10) 10 ltac:(lra) Hp Tp ltac:(lra) ltac:(lra) ltac:(lra) Hb HR) as [_ Hc].
  destruct (Hc eps He) as [J HJ]. exists J. intros j more Hj Hm run.
  destruct (C166_let_through even_table 0 (9 / 20) b 100 j more 1 0 0 0 (2 * PI) (1 / 10) leave_film half_draws ltac:(lra) Hp Tp ltac:(lia) ltac:(lra) HP
    ltac:(intros; apply mod2_half) ltac:(lra) ltac:(cbn [leave_film p_nmedium p_nsample]; lra) HR Hm) as (_ & (F & g & HF & HM & Hg) & _).
  exists F, g. split; [exact HF|]. split; [exact HM|]. specialize (HJ j Hj). change (p_thickness leave_film) with 10 in Hg. lra.
Qed.
(** [mean_at_most] bounds a mean: that of one uniform number is 1/2. *)
Example C166_mean b : mean_at_most 1 (fun t => t 0%nat) b <-> 1 / 2 <= b.
Proof.
  assert (I : is_mean 1 (fun t => t 0%nat) (1 / 2)).
  { exists (fun _ => 1 / 2). split; [|apply is_mean_const]. intros t.
    assert (Q : is_RInt (fun x : R => x) 0 1 (1 ^ 2 / 2 - 0 ^ 2 / 2)).
    { apply (is_RInt_derive (fun x : R => x ^ 2 / 2) (fun x : R => x)).
      - intros x _. auto_derive; [exact Logic.I|field].
      - intros x _. apply continuous_id. }
    replace (1 / 2) with (1 ^ 2 / 2 - 0 ^ 2 / 2) by field. exact Q. }
  split.
  - intros (G & g & HG & HM & Hg). apply Rle_trans with g; [|exact Hg]. exact (is_mean_le 1 _ _ _ _ (fun t _ => HG t) I HM).
  - intros Hb. exists (fun t => t 0%nat), (1 / 2). split; [intros; lra|]. split; [exact I|exact Hb].
Qed.
(** No light can be brought beyond direction 1: [reaches] then has no positive
    probability. *)
Example C166_none p lo beta : 0 <= lo <= PI -> List.Forall (fun x => 0 <= x) p -> 0 < total (map (angle_weight p lo) (seq 0 (length p))) ->
  reaches p lo 1 beta -> beta <= 0.
Proof.
  intros Hlo Hp Ht (h & Hc & _ & H0 & Hb). refine (Rle_trans _ _ _ (Hb 0 _ ltac:(lra) (after_integral p lo h 0 Hc)) _).
  refine (is_RInt_le (after_scattering p lo h 0) (fun _ => 0) 0 1 _ _ ltac:(lra) (after_integral p lo h 0 Hc) (const_int 0) _).
  intros x _. unfold after_scattering. apply Rle_trans with (average p lo (fun _ => 0)); [|right; apply average_const; assumption].
  apply average_mono; [assumption..|]. intros th. apply H0, Rabs_le. exact (new_range 0 th x ltac:(lra)).
Qed.
