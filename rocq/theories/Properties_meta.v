(** Changes of the input that must not change the answer, or change it in one
    direction only (C132-C137).  All for calc_refl_trans without goniometer and
    without re-run trajectories. *)
From Coq Require Import Lra Lia Psatz Permutation.
From Verif Require Import L_outcomes L_sphere_exits L_meta L_meta2 L_meta3 L_meta4 Spec_meta Properties_detector Properties_returned.
Open Scope R_scope.

Lemma Forall2_map_r {A B} (Q : A -> B -> Prop) (f : A -> B) l : (forall a, In a l -> Q a (f a)) -> Forall2 Q l (map f l).
Proof. induction l as [|a l IH]; cbn; intros H; constructor; [apply H; now left|apply IH; intros; apply H; now right]. Qed.
Lemma Forall2_map_l {A B} (Q : B -> A -> Prop) (f : A -> B) l : (forall a, In a l -> Q (f a) a) -> Forall2 Q (map f l) l.
Proof. induction l as [|a l IH]; cbn; intros H; constructor; [apply H; now left|apply IH; intros; apply H; now right]. Qed.
Lemma same_optics_refl P : same_optics P P.
Proof. repeat split. Qed.

(** C132.  A film sees heights, slopes and weights only. *)
Theorem C132_film_heights : forall fuel angs steps P ft d trs trs',
  p_boundary P = film -> p_run P = false -> p_gonio P = None -> Forall2 same_heights trs trs' ->
  calc_refl_trans (S fuel) angs steps P ft d trs = calc_refl_trans (S fuel) angs steps P ft d trs'.
Proof.
  intros fuel angs steps P ft d trs trs' Hb Hr Hg H. apply crt_same_views; auto; [apply same_optics_refl|].
  eapply Forall2_impl; [|exact H]. intros t t'. now apply same_heights_view.
Qed.
Print Assumptions C132_film_heights.

(** Turning the sample about the z axis or mirroring it in a plane through the
    axis changes nothing, for films and spheres. *)
Theorem C132_turned : forall fuel angs steps P ft d trs c s e,
  p_run P = false -> p_gonio P = None -> 0 < p_thickness P -> is_turn c s e ->
  (forall t, In t trs -> p_boundary P = film \/ near_axis (p_thickness P / 2) t) ->
  calc_refl_trans (S fuel) angs steps P ft d (map (turned c s e) trs) = calc_refl_trans (S fuel) angs steps P ft d trs.
Proof.
  intros fuel angs steps P ft d trs c s e Hr Hg Hth Hturn Hn. apply crt_same_views; auto; [apply same_optics_refl|].
  apply Forall2_map_l. intros t Ht. apply turn_view; auto.
Qed.
Print Assumptions C132_turned.

Example C132_case : is_turn (3 / 5) (4 / 5) (-1) /\ near_axis (2 / 2) (low_ray (1 / 2))
  /\ turned (3 / 5) (4 / 5) (-1) (low_ray (1 / 2)) <> low_ray (1 / 2).
Proof.
  split; [split; [field|right; reflexivity]|]. split.
  - unfold near_axis, low_ray. cbn [t_pos]. assert (1 <= 10 ^ 20) by (apply pow_R1_Rle; lra).
    apply Forall_cons; [|apply Forall_cons; [|apply Forall_nil]]; cbn [vx vy vz];
    replace (10 ^ 20 * (2 / 2)) with (10 ^ 20) by field.
    + replace (0 ^ 2 + 0 ^ 2) with 0 by ring. apply pow2_ge_0.
    + assert (2 <= 10 ^ 20) by (apply Rle_trans with (10 ^ 1); [lra|apply Rle_pow; [lra|lia]]).
      apply Rle_trans with (2 ^ 2); [lra|]. apply pow_incr. lra.
  - unfold turned, low_ray. cbn [t_pos t_dir t_w map]. intros E. apply (f_equal t_dir) in E. cbn [t_dir] in E.
    apply (f_equal (fun l => vx (nth 0 l vzero))) in E. unfold turn in E. cbn [nth vx vy vz] in E. lra.
Qed.

(** C133.  Only ratios of lengths matter: films; spheres if the surface does
    not refract. *)
Theorem C133_units : forall fuel angs steps P ft d trs l,
  p_run P = false -> p_gonio P = None -> 0 < l ->
  (p_boundary P = film /\ p_zlow P < p_thickness P
   \/ p_boundary P = sphere /\ choose_n_tir P = p_nmedium P /\ 0 < p_nmedium P /\ 0 < p_thickness P
      /\ forall t, In t trs -> wf_len t /\ in_sphere (p_thickness P / 2) (nth 0 (t_pos t) vzero)) ->
  calc_refl_trans (S fuel) angs steps (rescaled_params l P) ft d (map (rescaled l) trs)
  = calc_refl_trans (S fuel) angs steps P ft d trs.
Proof.
  intros fuel angs steps P ft d trs l Hr Hg Hl H. apply crt_same_views; auto; [repeat split|].
  apply Forall2_map_l. intros t Ht. apply scale_view; [exact Hl|].
  destruct H as [H|(H1 & H2 & H3 & H4 & H5)]; [left; exact H|right]. destruct (H5 t Ht). auto 10.
Qed.
Print Assumptions C133_units.

(** False for spheres with an index contrast: the same ray leaving the same
    sphere, drawn larger, is counted as transmitted instead of reflected. *)
Theorem C133_sphere_refuted : forall h n1 n2,
  0 < h < 1 -> 0 < n2 < n1 -> n1 * h < n2 ->
  exists l, 0 < l
    /\ event_indices n1 n2 2 0 sphere (low_ray h) = (1, 0, 0, 0)%nat
    /\ event_indices n1 n2 (l * 2) 0 sphere (rescaled l (low_ray h)) = (0, 1, 0, 0)%nat.
Proof.
  intros h n1 n2 Hh Hn Hcrit.
  destruct (C39_exit_kz_refuted h n1 n2 Hh Hn Hcrit) as [(z & Hz & Hneg) _].
  assert (W : wf_len (low_ray h)) by (repeat split; cbn; lia).
  assert (Lv : leaves_sphere 1 (low_ray h) 0).
  { split; [cbn; lia|]. split.
    - unfold in_sphere, low_ray. cbn [t_pos nth vx vy vz]. nra.
    - intros j Hj. assert (j = 0)%nat as -> by lia. unfold in_sphere, low_ray. cbn [t_pos nth vx vy vz]. nra. }
  pose proof (low_ray_angle h Hh) as Ha. set (c := sqrt (1 - h ^ 2)) in *.
  assert (Hc2 : c ^ 2 = 1 - h ^ 2) by (apply pow2_sqrt; nra).
  assert (Hc : 0 < c < 1) by (split; [apply sqrt_lt_R0; nra|nra]).
  assert (Hsin : sin (acos c) = h).
  { rewrite sin_acos by lra. replace (1 - Rsqr c) with (h ^ 2) by (unfold Rsqr; nra). apply sqrt_pow2. lra. }
  set (x := n1 / n2 * h).
  assert (Hx : h < x < 1).
  { unfold x. split.
    - assert (1 < n1 / n2) by (apply Rmult_lt_reg_r with n2; [lra|]; unfold Rdiv; rewrite Rmult_assoc, Rinv_l by lra; lra). nra.
    - replace (n1 / n2 * h) with ((n1 * h) / n2) by (field; lra). apply Rmult_lt_reg_r with n2; [lra|].
      unfold Rdiv. rewrite Rmult_assoc, Rinv_l by lra. lra. }
  assert (Hr : refraction (acos c) n1 n2 = Some (asin x)).
  { unfold refraction. rewrite Hsin. fold x. rewrite (proj2 (Rltb_false _ _)); [reflexivity|]. rewrite Rabs_pos_eq; lra. }
  set (al := asin x - acos c).
  assert (Hal : 0 < al < PI / 2).
  { unfold al. assert (Ea : acos c = asin h).
    { rewrite <- (asin_sin (acos c)); [now rewrite Hsin|].
      pose proof (acos_bound c). pose proof (acos_le_half c ltac:(lra)). lra. }
    rewrite Ea. split; [pose proof (asin_increasing h x ltac:(lra) ltac:(lra) ltac:(lra)); lra|].
    pose proof (asin_bound x). assert (0 < asin h) by (rewrite <- asin_0; apply asin_increasing; lra).
    lra. }
  assert (Hcos : cos al < 1).
  { rewrite <- cos_0. apply cos_decreasing_1; lra. }
  assert (Hs : 0 < sin al) by (apply sin_gt_0; lra).
  set (l := (sin al / (c ^ 2 * (1 - cos al))) + 1).
  assert (Hden : 0 < c ^ 2 * (1 - cos al)) by (apply Rmult_lt_0_compat; [apply pow_lt|]; lra).
  assert (Hl : 0 < l) by (unfold l; pose proof (Rdiv_lt_0_compat _ _ Hs Hden); lra).
  exists l. split; [exact Hl|].
  assert (Lv' : leaves_sphere (l * 1) (rescaled l (low_ray h)) 0) by (apply scale_leaves; assumption).
  assert (W' : wf_len (rescaled l (low_ray h))) by (repeat split; cbn; lia).
  split.
  - rewrite (leaves_events n1 n2 2 0 (low_ray h) 0 W) by (replace (2 / 2) with 1 by field; exact Lv).
    rewrite Hz, (proj2 (Rltb_true z 0)) by exact Hneg. reflexivity.
  - rewrite (leaves_events n1 n2 (l * 2) 0 (rescaled l (low_ray h)) 0 W') by (replace (l * 2 / 2) with (l * 1) by field; exact Lv').
    assert (Ea' : sphere_exit_angle (l * 2) (rescaled l (low_ray h)) 1 = (acos c, (c, 0, - h))).
    { rewrite scale_exit_angle by exact Hl. exact Ha. }
    rewrite (C39_exit_kz_value_refuted 1 (rescaled l (low_ray h)) (l * 2) n1 n2 (acos c) (asin x) (c, 0, - h) (1, 0, 0) Ea' eq_refl);
      [|unfold unit, dot; cbn; ring|unfold unit, dot; cbn; nra|unfold dot; cbn; rewrite cos_acos by lra; ring|exact Hr].
    fold al. cbn [vz]. rewrite cos_acos by lra.
    assert (Hpos : 0 < 0 * (cos al - sin al * c) + - h * (sin al - l * 2 / 2 * c ^ 2 * (1 - cos al))).
    { assert (E : l * 2 / 2 * c ^ 2 * (1 - cos al) = sin al + c ^ 2 * (1 - cos al)).
      { unfold l. field. split; apply Rgt_not_eq; lra. }
      rewrite E. nra. }
    rewrite (proj2 (Rltb_false _ 0)) by lra. rewrite (proj2 (Rltb_true 0 _)) by exact Hpos. reflexivity.
Qed.
Print Assumptions C133_sphere_refuted.

Example C133_case : 0 < 3 / 5 < 1 /\ 0 < 1 < 5 / 4 /\ 5 / 4 * (3 / 5) < 1
  /\ wf_len (low_ray (3 / 5)) /\ in_sphere (2 / 2) (nth 0 (t_pos (low_ray (3 / 5))) vzero).
Proof.
  repeat (split; [try lra; repeat split; cbn; lia|]). unfold in_sphere, low_ray. cbn [t_pos nth vx vy vz]. lra.
Qed.

(** C134.  Following a trajectory beyond the event where it leaves the sample
    changes nothing. *)
Theorem C134_more_events : forall fuel angs steps P ft d trs trs',
  p_run P = false -> p_gonio P = None ->
  Forall2 (fun t t' => wf_len t /\ (t' = t \/ continues t t' /\
     let ev := event_indices (choose_n_tir P) (p_nmedium P) (p_thickness P) (p_zlow P) (p_boundary P) t in
     (0 < i_refl ev + i_trans ev)%nat)) trs trs' ->
  calc_refl_trans (S fuel) angs steps P ft d trs' = calc_refl_trans (S fuel) angs steps P ft d trs.
Proof.
  intros fuel angs steps P ft d trs trs' Hr Hg H. symmetry. apply crt_same_views; auto; [apply same_optics_refl|].
  eapply Forall2_impl; [|exact H]. intros t t' (Hw & [-> | (Hc & Hx)]); [reflexivity|].
  symmetry. eapply continues_view; eauto.
Qed.
Print Assumptions C134_more_events.

(** Case: the trajectory of Properties_detector, which leaves at event 2,
    followed for one event more. *)
Example C134_case : continues ex_traj (mk_traj (t_pos ex_traj ++ [(0, 0, 5)]) (t_dir ex_traj ++ [(0, 0, 1)]) (t_w ex_traj ++ [1 / 2]))
  /\ (let ev := event_indices (choose_n_tir ex_film) (p_nmedium ex_film) (p_thickness ex_film) (p_zlow ex_film) film ex_traj in
      (0 < i_refl ev + i_trans ev)%nat).
Proof.
  split; [exists [(0, 0, 5)], [(0, 0, 1)], [1 / 2]; repeat split|].
  destruct ex_event as [ti He]. unfold choose_n_tir, ex_film. cbn [p_nparticle p_nmatrix p_nsample p_nmedium p_thickness p_zlow].
  rewrite (Rabs_pos_eq (3 / 2)) by lra. rewrite He. cbn. lia.
Qed.

(** C135.  The order of the trajectories does not matter. *)
Theorem C135_order : forall fuel angs steps P ft d trs trs',
  p_run P = false -> p_gonio P = None -> p_kz0rot P = None -> p_kz0refl P = None -> Permutation trs trs' ->
  answer (calc_refl_trans (S fuel) angs steps P ft d trs) = answer (calc_refl_trans (S fuel) angs steps P ft d trs').
Proof.
  intros fuel angs steps P ft d trs trs' Hr Hg H1 H2 Hp. rewrite !crt_view by assumption.
  apply answer_perm; auto. apply Permutation_map, Hp.
Qed.
Print Assumptions C135_order.

Example C135_case : exists o, calc_refl_trans 1 (fun _ _ _ => (0, 0)) (fun _ _ _ => 0) ex_film false 0 [ex_traj] = Ok (Some o)
  /\ answer (Ok (Some o)) = Ok (Some (o_refl o, o_trans o)).
Proof. destruct ex_film_number as (o & Ho & _). exists o. split; [exact Ho|reflexivity]. Qed.

Lemma answered P ft fuel angs steps d trs o :
  p_run P = false -> p_gonio P = None -> p_kz0rot P = None -> p_kz0refl P = None ->
  calc_refl_trans (S fuel) angs steps P ft d trs = Ok (Some o) ->
  let v := map (film_view P) trs in
  bad_in P ft v = false /\ bad_angle P ft v = false /\ bad_known P ft v = false /\ o_refl o = c_R P ft v /\ o_trans o = c_T P ft v.
Proof.
  intros Hr Hg H1 H2 H v. rewrite crt_view in H by assumption. fold v in H.
  pose proof (answer_closed P ft H1 H2 v) as E. rewrite H in E. cbn [answer] in E.
  destruct (bad_in P ft v); [discriminate|]. destruct (bad_angle P ft v); [discriminate|].
  destruct (bad_known P ft v); [discriminate|]. inversion E. auto.
Qed.

(** C136.  Taking weight from the trajectories (more absorption) never adds to
    the reflectance or the transmittance, if everything that leaves is
    detected. *)
Theorem C136_dimmer : forall fuel angs steps P ft d trs trs' o o',
  valid_params P (length trs) -> p_run P = false -> p_gonio P = None -> p_kz0rot P = None -> p_kz0refl P = None ->
  full_detection P -> Rabs (p_nsample P) <= choose_n_tir P ->
  (forall t, In t trs -> col_ok 1 t /\ (p_boundary P = film -> dirs_ok t)) ->
  Forall2 dimmer trs trs' ->
  calc_refl_trans (S fuel) angs steps P ft d trs = Ok (Some o) ->
  calc_refl_trans (S fuel) angs steps P ft d trs' = Ok (Some o') ->
  o_refl o' <= o_refl o /\ o_trans o' <= o_trans o.
Proof.
  intros fuel angs steps P ft d trs trs' o o' Hv Hr Hg H1 H2 Hfull Hle HT Hdim Ho Ho'.
  pose proof (valid_good _ _ Hv) as G. destruct G as (Gm & Gs & Gt & Gf & Gb & _).
  destruct (answered _ _ _ _ _ _ _ _ Hr Hg H1 H2 Ho) as (B1 & B2 & B3 & -> & ->).
  destruct (answered _ _ _ _ _ _ _ _ Hr Hg H1 H2 Ho') as (_ & B2' & _ & -> & ->).
  assert (HT' : forall t, In t trs' -> col_ok 1 t /\ (p_boundary P = film -> dirs_ok t)).
  { clear -HT Hdim. induction Hdim as [|t t' l m (E1 & E2 & Hw) _ IH]; cbn; [tauto|].
    intros x [<- | Hx]; [|apply IH; [intros; apply HT; now right|exact Hx]].
    destruct (HT t (or_introl eq_refl)) as [((L1 & L2 & L3) & Hc) Hd]. split; [|unfold dirs_ok in *; now rewrite E2].
    split; [unfold wf_len; rewrite E1, E2; rewrite (Forall2_len _ _ _ Hw); auto|].
    clear -Hw Hc. revert Hc. induction Hw as [|a b l m Hab _ IH]; intros Hc; [apply Forall_nil|].
    inversion Hc; subst. apply Forall_cons; [lra|auto]. }
  assert (Hdet : forall t, col_ok 1 t -> (p_boundary P = film -> dirs_ok t) ->
     let a := film_view P t in c_dr P ft a = c_rp P ft a /\ c_dt P ft a = c_tp P ft a).
  { intros t (Hw & _) Hd a.
    destruct (detect_all' P (length trs) (fun _ => t) (fun _ => v_inc P ft a) 0 (valid_good _ _ Hv) Hg H1 Hfull Hle Hw Hd) as [D1 D2].
    assert (Etr : sl_tr P (fun _ => t) 0 = t) by (unfold sl_tr; rewrite Hg; reflexivity).
    unfold sl_dr, sl_dt, sl_rp, sl_tp, sl_ar, sl_at, sl_rw, sl_tw, sl_ri, sl_ti in D1, D2. rewrite Hg, Etr in *.
    split; [exact D1|exact D2]. }
  apply dim_mono; auto.
  - intros a Ha. apply in_map_iff in Ha. destruct Ha as (t & <- & Ht). apply film_view_ok; [exact Hg|apply HT, Ht].
  - intros a Ha. apply in_map_iff in Ha. destruct Ha as (t & <- & Ht). apply film_view_ok; [exact Hg|apply HT', Ht].
  - intros a Ha. apply in_map_iff in Ha. destruct Ha as (t & <- & Ht). destruct (HT t Ht). now apply Hdet.
  - intros a Ha. apply in_map_iff in Ha. destruct Ha as (t & <- & Ht). destruct (HT' t Ht). now apply Hdet.
  - clear -Hdim. induction Hdim as [|t t' l m (E1 & E2 & Hw) _ IH]; cbn [map]; constructor; [|exact IH].
    assert (Ee : event_indices (choose_n_tir P) (p_nmedium P) (p_thickness P) (p_zlow P) (p_boundary P) t'
       = event_indices (choose_n_tir P) (p_nmedium P) (p_thickness P) (p_zlow P) (p_boundary P) t).
    { unfold event_indices, find_valid_exits, find_valid_exits_film, find_valid_exits_sphere, exit_kz, sphere_exit_angle.
      rewrite E1, E2. reflexivity. }
    assert (Hsel : forall i, select_col (t_w t') i <= select_col (t_w t) i).
    { intros [|i]; [cbn; lra|]. cbn [select_col]. clear -Hw. revert i. induction Hw as [|a b l m Hab _ IH]; intros [|i]; cbn; try lra. apply IH. }
    unfold dim_view, film_view. rewrite Ee.
    unfold film_exit_angle, L_meta.exit_angle, film_exit_angle, sphere_exit_angle, sphere_entry_angle. cbn [v_first v_ar v_at v_kz0 v_ae v_wr v_wt v_ws].
    rewrite E1, E2. repeat split; apply Hsel.
Qed.
Print Assumptions C136_dimmer.

(** Such trajectories come from a larger absorption coefficient. *)
Theorem C136_more_absorption : forall mu mu' w steps pos dir,
  mu <= mu' -> Forall (fun x => 0 <= x) steps -> Forall (fun x => 0 <= x) w ->
  dimmer (mk_traj pos dir (absorb mu w steps)) (mk_traj pos dir (absorb mu' w steps)).
Proof.
  intros mu mu' w steps pos dir Hmu Hs Hw. repeat split. cbn [t_w]. unfold absorb, cumsum.
  assert (H : forall acc, 0 <= acc -> Forall (fun x => 0 <= x) (cumsum_from acc steps)).
  { induction Hs as [|x l Hx _ IH]; intros acc Ha; cbn; [apply Forall_nil|]. apply Forall_cons; [lra|apply IH; lra]. }
  specialize (H 0 (Rle_refl 0)). revert H. generalize (cumsum_from 0 steps) as c. clear -Hmu Hw.
  induction Hw as [|x l Hx _ IH]; intros [|y m] Hc; cbn; constructor.
  - inversion Hc; subst. split; [apply Rmult_le_pos; [exact Hx|left; apply exp_pos]|].
    apply Rmult_le_compat_l; [exact Hx|]. destruct (Req_dec (mu' * y) (mu * y)) as [-> |Hne]; [lra|].
    left. apply exp_increasing. assert (mu * y <= mu' * y) by (apply Rmult_le_compat_r; lra). lra.
  - apply IH. inversion Hc; assumption.
Qed.
Print Assumptions C136_more_absorption.

(** Non-vacuity: the two weight lists of one and the same path with and
    without absorption over steps of length 1/2 and 3/2; both calls answer. *)
Example C136_case :
  dimmer (mk_traj (t_pos ex_traj) (t_dir ex_traj) (absorb 0 [1; 1] [1 / 2; 3 / 2]))
         (mk_traj (t_pos ex_traj) (t_dir ex_traj) (absorb 1 [1; 1] [1 / 2; 3 / 2]))
  /\ dimmer ex_traj (mk_traj (t_pos ex_traj) (t_dir ex_traj) [1; 1 / 2])
  /\ exists o o',
       calc_refl_trans 1 (fun _ _ _ => (0, 0)) (fun _ _ _ => 0) ex_film false 0 [ex_traj] = Ok (Some o)
       /\ calc_refl_trans 1 (fun _ _ _ => (0, 0)) (fun _ _ _ => 0) ex_film false 0
            [mk_traj (t_pos ex_traj) (t_dir ex_traj) [1; 1 / 2]] = Ok (Some o').
Proof.
  split.
  { apply C136_more_absorption; [lra| |]; apply Forall_cons; try lra; apply Forall_cons; try lra; apply Forall_nil. }
  split.
  { repeat split. cbn [t_w ex_traj]. constructor; [lra|]. constructor; [lra|constructor]. }
  destruct ex_film_number as (o & Ho & _). exists o.
  set (t' := mk_traj (t_pos ex_traj) (t_dir ex_traj) [1; 1 / 2]).
  assert (E : Rabs (3 / 2) = 3 / 2) by (apply Rabs_pos_eq; lra).
  destruct ex_traj_ok as (_ & D & _ & _).
  destruct (C33_film_number_partial 0 (fun _ _ _ => (0, 0)) (fun _ _ _ => 0) ex_film 0 1 (fun _ => t') 0
    ex_film_valid (proj1 ex_film_plain) eq_refl eq_refl ltac:(discriminate) ltac:(discriminate)) as (o' & Ho').
  - intros i _. split; [repeat split; cbn; lia|]. split; [exact D|].
    split; [unfold t', fraction; cbn [t_w]; apply Forall_cons; [lra|]; apply Forall_cons; [lra|apply Forall_nil]|].
    cbn [p_nsample p_nmedium ex_film]. rewrite E. apply ex_steep.
  - lia.
  - cbn [p_nsample p_nmedium p_thickness p_zlow ex_film]. rewrite E.
    destruct ex_event as [ti He]. exists 2%nat, 0%nat, 0%nat, ti.
    split; [exact He|]. split; [lia|]. cbn. lra.
  - exists o'. split; [exact Ho|exact Ho'].
Qed.

(** With a limited aperture C136 is false: dimming the trajectory that misses
    the detector raises the share of the light leaving that the code takes to
    be detected, and with it the part of the stuck light counted as
    reflectance. *)
Definition dim_film : params :=
  mk_params 1 1 1 film 0 (PI / 6) None None false 20 (1 / 100) 0 None None None 0 None None.
Definition ray_back (w : R) (k : vec) : traj := mk_traj [(0, 0, 0); (0, 0, 1 / 2); (0, 0, - 1)] [(0, 0, 1); k] [1; w].
Definition ray_stuck : traj := mk_traj [(0, 0, 0); (0, 0, 1 / 2); (0, 0, 1 / 4)] [(0, 0, 1); (0, 0, -1)] [1; 1].
Definition oblique : vec := (4 / 5, 0, - (3 / 5)).

Lemma back_event w k : -1 <= vz k < 0 -> exists ti, event_indices 1 1 1 0 film (ray_back w k) = (2%nat, 0%nat, 0%nat, ti).
Proof.
  intros Hk. destruct (first_exit_physical 1 1 1 (ray_back w k) 1) as [H _].
  - repeat split; cbn; lia.
  - unfold dirs_ok. cbn [t_dir ray_back]. apply Forall_cons; [cbn; lra|]. apply Forall_cons; [lra|apply Forall_nil].
  - lra.
  - lra.
  - cbn; lia.
  - intros [|[|j]] Hj; cbn; try lra. lia.
  - unfold steep. cbn [nth t_dir ray_back]. rewrite Rmult_1_l. rewrite <- sqrt_1. apply sqrt_lt_1_alt.
    assert (0 < vz k ^ 2) by (cbn; nra). assert (vz k ^ 2 <= 1) by (cbn; nra). rewrite sqrt_1. lra.
  - apply H. cbn. lra.
Qed.
Lemma stuck_event : exists ti, event_indices 1 1 1 0 film ray_stuck = (0%nat, 0%nat, 2%nat, ti).
Proof.
  destruct (find_valid_exits 1 1 1 0 film ray_stuck) as [[ps ng] ti] eqn:He.
  assert (W : wf_len ray_stuck) by (repeat split; cbn; lia).
  assert (D : dirs_ok ray_stuck).
  { unfold dirs_ok. cbn [t_dir ray_stuck]. apply Forall_cons; [cbn; lra|]. apply Forall_cons; [cbn; lra|apply Forall_nil]. }
  destruct (trajectory_outcome _ _ _ _ _ _ _ _ _ W He) as (r & tt & s & Hev & Ho).
  destruct (film_lengths _ _ _ _ _ _ _ _ W He) as [L1 [L2 _]].
  assert (Hno : forall j, (j < 2)%nat -> nth j ps false = false /\ nth j ng false = false).
  { intros j Hj. pose proof (film_exit_characterised 1 1 1 0 ray_stuck ps ng ti j 0 W D ltac:(lra) ltac:(lra) He ltac:(cbn; lia)) as H.
    cbn zeta in H.
    assert (Hz : 0 <= vz (nth j (t_pos ray_stuck) vzero) < 1) by (destruct j as [|[|j]]; cbn; lra || lia).
    assert (Hz1 : 0 <= vz (nth (S j) (t_pos ray_stuck) vzero) < 1) by (destruct j as [|[|j]]; cbn; lra || lia).
    destruct H as [Hp [Hn _]]; [unfold in_slab; lra|]. split.
    - destruct (nth j ps false); [|reflexivity].
      destruct Hp as [Hp _]. destruct (Hp eq_refl) as [_ [[_ H]|[H _]]]; [lra|discriminate].
    - destruct (nth j ng false); [|reflexivity].
      destruct Hn as [Hn _]. destruct (Hn eq_refl) as [_ [[_ H]|[H _]]]; [lra|discriminate]. }
  cbn [t_dir ray_stuck length] in *.
  destruct Ho as [(_ & _ & -> & -> & ->)|[(k & _ & Hk & _)|(k & _ & Hk & _)]].
  - eexists; exact Hev.
  - destruct (le_lt_dec 2 k); [rewrite nth_overflow in Hk by lia; discriminate|]. destruct (Hno k ltac:(lia)). congruence.
  - destruct (le_lt_dec 2 k); [rewrite nth_overflow in Hk by lia; discriminate|]. destruct (Hno k ltac:(lia)). congruence.
Qed.

Lemma dim_tir : choose_n_tir dim_film = 1.
Proof. unfold choose_n_tir. cbn. apply Rabs_R1. Qed.
Lemma film_angle_unit : film_angle 1 = 0.
Proof. unfold film_angle. rewrite Rabs_R1. apply acos_1. Qed.
Lemma film_angle_zero : film_angle 0 = PI / 2.
Proof. unfold film_angle. rewrite Rabs_R0. apply acos_0. Qed.
Lemma back_view w k : -1 <= vz k < 0 ->
  film_view dim_film (ray_back w k) = mk_view 2 0 0 w 0 0 (film_angle (vz k)) (PI / 2) 1 0.
Proof.
  intros Hk. destruct (back_event w k Hk) as [ti He]. unfold film_view. rewrite dim_tir.
  change (p_nmedium dim_film) with 1. change (p_thickness dim_film) with 1. change (p_zlow dim_film) with 0.
  change (p_boundary dim_film) with film. rewrite He. unfold L_meta.exit_angle, film_exit_angle.
  cbn [p_boundary dim_film]. cbn [i_refl i_trans i_stuck select_col ray_back t_dir t_w map nth vz snd].
  rewrite film_angle_unit, film_angle_zero. reflexivity.
Qed.
Lemma stuck_view : film_view dim_film ray_stuck = mk_view 0 0 0 0 0 1 (PI / 2) (PI / 2) 1 0.
Proof.
  destruct stuck_event as [ti He]. unfold film_view. rewrite dim_tir.
  change (p_nmedium dim_film) with 1. change (p_thickness dim_film) with 1. change (p_zlow dim_film) with 0.
  change (p_boundary dim_film) with film. rewrite He. unfold L_meta.exit_angle, film_exit_angle.
  cbn [p_boundary dim_film]. cbn [i_refl i_trans i_stuck select_col ray_stuck t_dir t_w map nth vz snd].
  rewrite film_angle_unit, film_angle_zero. reflexivity.
Qed.

Lemma half_right : 0 < film_angle (- (3 / 5)) < PI / 2 /\ PI / 6 < film_angle (- (3 / 5)).
Proof.
  unfold film_angle. rewrite Rabs_left by lra. replace (- - (3 / 5)) with (3 / 5) by ring.
  assert (H : acos (3 / 5) < PI / 2) by (rewrite <- acos_0; apply acos_decreasing; lra).
  assert (H' : PI / 6 < acos (3 / 5)).
  { assert (E : PI / 6 = acos (cos (PI / 6))) by (symmetry; apply acos_cos; pose proof PI_RGT_0; lra). rewrite E.
    rewrite cos_PI6. pose proof (sqrt_sqrt 3 ltac:(lra)). pose proof (sqrt_pos 3).
    assert (3 / 2 < sqrt 3 <= 2) by (split; nra). apply acos_decreasing; lra. }
  pose proof PI_RGT_0. lra.
Qed.

Definition dim_p : R := / (1 + EPS).
Lemma dim_p_range : 99 / 100 < dim_p < 1.
Proof.
  assert (0 < EPS < 1 / 1000).
  { unfold EPS. split; [apply Rinv_0_lt_compat, pow_lt; lra|]. apply Rle_lt_trans with (/ 10 ^ 4); [|lra].
    apply Rinv_le_contravar; [apply pow_lt; lra|]. apply Rle_pow; [lra|lia]. }
  unfold dim_p. split.
  - apply Rmult_lt_reg_r with (1 + EPS); [lra|]. rewrite Rinv_l by lra. lra.
  - rewrite <- Rinv_1. apply Rinv_lt_contravar; lra.
Qed.
Lemma at_zero n th : 0 < n -> 0 <= th -> forall w, detect1 n n th 0 w = w.
Proof.
  intros Hn Hth w. unfold detect1, refraction. rewrite sin_0, Rmult_0_r, Rabs_R0.
  rewrite (proj2 (Rltb_false _ _)) by lra. rewrite asin_0, (proj2 (Rltb_false _ _)) by lra. reflexivity.
Qed.

Definition dim_run (w : R) : list traj := [ray_back 1 (0, 0, -1); ray_back w oblique; ray_stuck].

Lemma dim_answer w : 0 < w <= 1 ->
  exists o, calc_refl_trans 1 (fun _ _ _ => (0, 0)) (fun _ _ _ => 0) dim_film false 0 (dim_run w) = Ok (Some o)
  /\ 3 * o_refl o = dim_p ^ 2 + 3 * (1 - dim_p)
       + ((1 + w) * (dim_p - dim_p ^ 2) * ((1 + w) * dim_p ^ 2 / (dim_p ^ 2 * (1 + w) + dim_p * (1 - w))) + dim_p / 2) / (1 + w).
Proof.
  intros Hw. pose proof dim_p_range as Hp. destruct half_right as [Ha Hb].
  set (v := map (film_view dim_film) (dim_run w)).
  assert (Ev : v = [mk_view 2 0 0 1 0 0 0 (PI / 2) 1 0;
                    mk_view 2 0 0 w 0 0 (film_angle (- (3 / 5))) (PI / 2) 1 0; mk_view 0 0 0 0 0 1 (PI / 2) (PI / 2) 1 0]).
  { unfold v, dim_run. cbn [map]. rewrite stuck_view, !back_view by (cbn; lra).
    replace (film_angle (vz (0, 0, -1))) with 0; [reflexivity|].
    unfold film_angle. cbn. rewrite Rabs_left by lra. replace (- (-1)) with 1 by ring. symmetry. apply acos_1. }
  rewrite crt_view by reflexivity. fold v.
  pose proof (answer_closed dim_film false eq_refl eq_refl v) as E.
  assert (Ein : forall a, In a v -> v_in dim_film a = Some 0).
  { intros a Hin. rewrite Ev in Hin. assert (Ea : v_first a = 0) by (destruct Hin as [<-|[<-|[<-|[]]]]; reflexivity).
    unfold v_in. rewrite dim_tir, Ea. cbn [p_boundary dim_film p_nmedium]. unfold refraction. rewrite sin_0, Rmult_0_r, Rabs_R0.
    rewrite (proj2 (Rltb_false _ _)) by lra. rewrite asin_0. cbn [option_map]. rewrite cos_0, film_angle_unit. reflexivity. }
  assert (Einc : forall a, In a v -> v_inc dim_film false a = dim_p).
  { intros a Hin. unfold v_inc. rewrite (Ein a Hin), dim_tir. cbn [nan_to_num p_nmedium p_nfront dim_film].
    apply pf1_no_contrast; [lra|]. pose proof PI_RGT_0. lra. }
  assert (Hpi := PI_RGT_0).
  assert (Eb1 : bad_in dim_film false v = false).
  { unfold bad_in. cbn [negb andb]. destruct (existsb is_none (map (v_in dim_film) v)) eqn:X; [|reflexivity].
    apply existsb_exists in X. destruct X as (x & Hx & Hn). apply in_map_iff in Hx. destruct Hx as (a & <- & Hin).
    rewrite (Ein a Hin) in Hn. discriminate. }
  assert (Eb2 : bad_angle dim_film false v = false).
  { unfold bad_angle. cbn [negb andb].
    rewrite (map_ext_in (fun a => nan_to_num (v_in dim_film a)) (fun _ => 0)) by (intros a Hin; now rewrite (Ein a Hin)).
    rewrite Ev. cbn [map existsb v_ar v_at]. unfold past. rewrite !(proj2 (Rltb_false _ _)) by lra. reflexivity. }
  set (p := dim_p) in *. set (th := film_angle (- (3 / 5))) in *.
  set (a1 := mk_view 2 0 0 1 0 0 0 (PI / 2) 1 0) in *. set (a2 := mk_view 2 0 0 w 0 0 th (PI / 2) 1 0) in *.
  set (a3 := mk_view 0 0 0 0 0 1 (PI / 2) (PI / 2) 1 0) in *.
  assert (I1 : v_inc dim_film false a1 = p) by (apply Einc; rewrite Ev; left; reflexivity).
  assert (I2 : v_inc dim_film false a2 = p) by (apply Einc; rewrite Ev; right; left; reflexivity).
  assert (I3 : v_inc dim_film false a3 = p) by (apply Einc; rewrite Ev; right; right; left; reflexivity).
  assert (F0 : pf1 1 None 1 0 = p) by (apply pf1_no_contrast; lra).
  assert (Fth : pf1 1 None 1 th = p) by (apply pf1_no_contrast; lra).
  assert (RP : c_rp dim_film false a1 = p * p /\ c_rp dim_film false a2 = w * (p * p) /\ c_rp dim_film false a3 = 0).
  { unfold c_rp, c_rw. rewrite I1, I2, I3, dim_tir. cbn [p_nfront p_nmedium dim_film v_ar v_wr a1 a2 a3]. rewrite F0, Fth.
    repeat split; ring. }
  assert (TP : c_tp dim_film false a1 = 0 /\ c_tp dim_film false a2 = 0 /\ c_tp dim_film false a3 = 0).
  { unfold c_tp, c_tw. rewrite I1, I2, I3. cbn [v_wt a1 a2 a3]. repeat split; ring. }
  assert (TF : c_tf dim_film false a1 = 0 /\ c_tf dim_film false a2 = 0 /\ c_tf dim_film false a3 = 0).
  { unfold c_tf. destruct TP as (-> & -> & ->). unfold c_tw. cbn [v_wt a1 a2 a3]. repeat split; ring. }
  assert (RF : c_rf dim_film false a1 = p - p * p /\ c_rf dim_film false a2 = w * (p - p * p) /\ c_rf dim_film false a3 = 0).
  { unfold c_rf. destruct RP as (-> & -> & ->). unfold c_rw. rewrite I1, I2, I3. cbn [v_wr a1 a2 a3]. repeat split; ring. }
  assert (SW : c_sw dim_film false a1 = 0 /\ c_sw dim_film false a2 = 0 /\ c_sw dim_film false a3 = p).
  { unfold c_sw. rewrite I1, I2, I3. cbn [v_ws a1 a2 a3]. repeat split; ring. }
  assert (AB : c_ab dim_film false a1 = 0 /\ c_ab dim_film false a2 = p * (1 - w) /\ c_ab dim_film false a3 = 0).
  { unfold c_ab. destruct SW as (-> & -> & ->). unfold c_rw, c_tw. rewrite I1, I2, I3. cbn [v_wr v_wt a1 a2 a3]. repeat split; ring. }
  assert (DI : forall a, In a v -> c_di dim_film false a = 1 - p).
  { intros a Hin. unfold c_di. rewrite (Einc a Hin). rewrite Ev in Hin.
    assert (Ed : v_dia dim_film a = 0).
    { unfold v_dia. cbn [p_boundary dim_film]. destruct Hin as [<-|[<-|[<-|[]]]]; apply film_angle_unit. }
    rewrite Ed. apply at_zero; cbn; lra. }
  assert (DR : c_dr dim_film false a1 = p * p /\ c_dr dim_film false a2 = 0 /\ c_dr dim_film false a3 = 0).
  { unfold c_dr. destruct RP as (-> & -> & ->). cbn [p_nsample p_nmedium p_detection dim_film v_ar a1 a2 a3]. rewrite Rabs_R1.
    split; [apply at_zero; lra|]. split.
    - unfold detect1. destruct (refraction th 1 1) as [r|] eqn:X; [|reflexivity].
      rewrite refraction_same in X by lra. injection X as <-. rewrite (proj2 (Rltb_true _ _)) by lra. reflexivity.
    - unfold detect1. destruct (refraction _ _ _); [|reflexivity]. destruct (Rltb _ _); reflexivity. }
  assert (K : c_known dim_film false v = p * p * (1 + w) + p * (1 - w)).
  { unfold c_known. rewrite Ev. cbn [map total]. destruct RP as (-> & -> & ->), TP as (-> & -> & ->), AB as (-> & -> & ->). ring. }
  assert (Kpos : 0 < p * p * (1 + w) + p * (1 - w)) by nra.
  assert (Eb3 : bad_known dim_film false v = false).
  { unfold bad_known. cbn [p_boundary dim_film]. rewrite K. apply (proj2 (Reqb_false _ _)). lra. }
  rewrite Eb1, Eb2, Eb3 in E.
  destruct (view_result dim_film false v) as [[o|]|e] eqn:Er; cbn [answer] in E; try discriminate.
  exists o. split; [reflexivity|]. injection E as -> _.
  assert (Er1 : total (map (c_rp dim_film false) v) = (1 + w) * (p * p)).
  { rewrite Ev. cbn [map total]. destruct RP as (-> & -> & ->). ring. }
  assert (Ed1 : total (map (c_dr dim_film false) v) = p * p).
  { rewrite Ev. cbn [map total]. destruct DR as (-> & -> & ->). ring. }
  assert (He : EPS < 1 / 1000).
  { unfold EPS. apply Rle_lt_trans with (/ 10 ^ 4); [|lra].
    apply Rinv_le_contravar; [apply pow_lt; lra|]. apply Rle_pow; [lra|lia]. }
  assert (Erdf : c_rdf dim_film false v = / (1 + w)).
  { unfold c_rdf. rewrite Er1, Ed1. rewrite !Rmax_left by nra. field. split; nra. }
  assert (Erf : c_rfrac dim_film false v = (1 + w) * (p * p) / (p * p * (1 + w) + p * (1 - w))).
  { unfold c_rfrac. rewrite Er1, K. reflexivity. }
  unfold c_R.
  assert (Esum : forall f, total (map f v) = f a1 + (f a2 + (f a3 + 0))) by (intros f; rewrite Ev; reflexivity).
  rewrite Esum.
  rewrite (DI a1), (DI a2), (DI a3) by (rewrite Ev; cbn [In]; tauto).
  unfold c_er. cbn [p_boundary dim_film]. rewrite Erdf, Erf.
  destruct RF as (-> & -> & ->), TF as (-> & -> & ->), SW as (-> & -> & ->), DR as (-> & -> & ->).
  replace (INR (length v)) with 3 by (rewrite Ev; cbn [length]; cbn; ring). field. split; nra.
Qed.

Theorem C136_aperture_refuted : exists P trs trs' o o',
  valid_params P (length trs) /\ p_run P = false /\ plain P /\ 0 < p_detection P < PI / 2
  /\ (forall t, In t trs -> col_ok 1 t /\ dirs_ok t) /\ Forall2 dimmer trs trs'
  /\ calc_refl_trans 1 (fun _ _ _ => (0, 0)) (fun _ _ _ => 0) P false 0 trs = Ok (Some o)
  /\ calc_refl_trans 1 (fun _ _ _ => (0, 0)) (fun _ _ _ => 0) P false 0 trs' = Ok (Some o')
  /\ o_refl o < o_refl o'.
Proof.
  destruct (dim_answer 1 ltac:(lra)) as (o & Ho & E). destruct (dim_answer (1 / 2) ltac:(lra)) as (o' & Ho' & E').
  exists dim_film, (dim_run 1), (dim_run (1 / 2)), o, o'.
  split; [unfold valid_params, dim_film; cbn; repeat split; try lra; discriminate|].
  split; [reflexivity|]. split; [repeat split|]. split; [cbn; pose proof PI_RGT_0; lra|].
  split.
  { intros t Ht. unfold dim_run in Ht. cbn [In] in Ht. destruct Ht as [<-|[<-|[<-|[]]]]; (split; [split; [repeat split; cbn; lia|]|]);
    unfold dirs_ok, oblique; cbn [t_w t_dir ray_back ray_stuck]; apply Forall_cons; try (cbn; lra); apply Forall_cons; try (cbn; lra); apply Forall_nil. }
  split.
  { unfold dim_run. constructor; [|constructor; [|constructor; [|constructor]]]; (split; [reflexivity|split; [reflexivity|]]);
    cbn [t_w ray_back ray_stuck]; constructor; try lra; constructor; try lra; constructor. }
  split; [exact Ho|]. split; [exact Ho'|].
  pose proof dim_p_range as Hp. set (p := dim_p) in *.
  set (g := (1 + 1 / 2) * p ^ 2 / (p ^ 2 * (1 + 1 / 2) + p * (1 - 1 / 2))) in *.
  assert (Hg : 0 <= g).
  { unfold g. assert (0 < p ^ 2) by (apply pow_lt; lra). apply Rmult_le_pos; [lra|]. left. apply Rinv_0_lt_compat. lra. }
  replace ((1 + 1) * p ^ 2 / (p ^ 2 * (1 + 1) + p * (1 - 1))) with 1 in E by (field; lra).
  assert (Hd : 0 <= p - p ^ 2 <= 1 / 100) by (split; nra).
  assert (0 <= (p - p ^ 2) * g) by (apply Rmult_le_pos; lra). lra.
Qed.
Print Assumptions C136_aperture_refuted.

(** C137.  A larger aperture never detects less. *)
Theorem C137_aperture : forall fuel angs steps P ft d trs a1 a2 o1 o2,
  valid_params P (length trs) -> p_run P = false -> p_gonio P = None -> p_kz0rot P = None -> p_kz0refl P = None ->
  (forall t, In t trs -> col_ok 1 t) -> a1 <= a2 ->
  calc_refl_trans (S fuel) angs steps (with_detection a1 P) ft d trs = Ok (Some o1) ->
  calc_refl_trans (S fuel) angs steps (with_detection a2 P) ft d trs = Ok (Some o2) ->
  o_refl o1 <= o_refl o2 /\ o_trans o1 <= o_trans o2.
Proof.
  intros fuel angs steps P ft d trs a1 a2 o1 o2 Hv Hr Hg H1 H2 HT Ha Ho1 Ho2.
  pose proof (valid_good _ _ Hv) as G. destruct G as (Gm & Gs & Gt & Gf & Gb & _).
  destruct (answered (with_detection a1 P) _ _ _ _ _ _ _ Hr Hg H1 H2 Ho1) as (B1 & B2 & B3 & -> & ->).
  destruct (answered (with_detection a2 P) _ _ _ _ _ _ _ Hr Hg H1 H2 Ho2) as (_ & _ & _ & -> & ->).
  apply (aperture_mono P ft (map (film_view P) trs)); auto.
  intros a Hin. apply in_map_iff in Hin. destruct Hin as (t & <- & Ht). apply film_view_ok; auto.
Qed.
Print Assumptions C137_aperture.

(** ... and whether the call answers does not depend on the aperture. *)
Theorem C137_same_failures : forall fuel angs steps P ft d trs a,
  p_run P = false -> p_gonio P = None -> p_kz0rot P = None -> p_kz0refl P = None ->
  match calc_refl_trans (S fuel) angs steps P ft d trs,
        calc_refl_trans (S fuel) angs steps (with_detection a P) ft d trs with
  | Err e, Err e' => e = e' | Ok None, Ok None => True | Ok (Some _), Ok (Some _) => True | _, _ => False end.
Proof.
  intros fuel angs steps P ft d trs a Hr Hg H1 H2.
  rewrite (crt_view fuel angs steps P), (crt_view fuel angs steps (with_detection a P)) by assumption.
  pose proof (answer_closed P ft H1 H2 (map (film_view P) trs)) as E.
  pose proof (answer_closed (with_detection a P) ft H1 H2 (map (film_view P) trs)) as E'.
  change (bad_in (with_detection a P)) with (bad_in P) in E'. change (bad_angle (with_detection a P)) with (bad_angle P) in E'.
  change (bad_known (with_detection a P)) with (bad_known P) in E'.
  change (map (film_view (with_detection a P)) trs) with (map (film_view P) trs).
  destruct (bad_in P ft (map (film_view P) trs)); [|destruct (bad_angle P ft (map (film_view P) trs)); [|destruct (bad_known P ft (map (film_view P) trs))]];
    destruct (view_result P ft _) as [[]|]; destruct (view_result (with_detection a P) ft _) as [[]|];
    cbn [answer] in *; congruence || exact Logic.I.
Qed.
Print Assumptions C137_same_failures.

Example C137_case : exists o1 o2, 0 <= 1 <= PI / 2 /\
  calc_refl_trans 1 (fun _ _ _ => (0, 0)) (fun _ _ _ => 0) (with_detection 1 ex_film) false 0 [ex_traj] = Ok (Some o1)
  /\ calc_refl_trans 1 (fun _ _ _ => (0, 0)) (fun _ _ _ => 0) (with_detection (PI / 2) ex_film) false 0 [ex_traj] = Ok (Some o2).
Proof.
  destruct ex_film_number as (o & Ho & _). change (map (fun _ : nat => ex_traj) (seq 0 1)) with [ex_traj] in Ho.
  pose proof (C137_same_failures 0 (fun _ _ _ => (0, 0)) (fun _ _ _ => 0) ex_film false 0 [ex_traj] 1 eq_refl eq_refl eq_refl eq_refl) as H1.
  pose proof (C137_same_failures 0 (fun _ _ _ => (0, 0)) (fun _ _ _ => 0) ex_film false 0 [ex_traj] (PI / 2) eq_refl eq_refl eq_refl eq_refl) as H2.
  rewrite Ho in H1, H2.
  destruct (calc_refl_trans 1 _ _ (with_detection 1 ex_film) _ _ _) as [[o1|]|]; try contradiction.
  destruct (calc_refl_trans 1 _ _ (with_detection (PI / 2) ex_film) _ _ _) as [[o2|]|]; try contradiction.
  exists o1, o2. split; [pose proof PI2_3_2; lra|]. split; reflexivity.
Qed.
