(** Array-level weights (C27, C29), NaN outcomes of films (C33), recursion
    depth (C35), goniometer on spheres, haze (C44). *)
From Coq Require Import Lra Lia Psatz.
From Verif Require Import Num Spec L_init L_montecarlo.
From Verif Require Export L_conserve L_geometry L_gonio L_rerun.
Open Scope R_scope.

(* ------------------------------------------------------------------ *)
(** * Trajectories that never leave *)

Lemma never_map {A} (f : A -> bool) l : (forall a, In a l -> f a = false) -> never_true (map f l).
Proof.
  intros H j. destruct (Nat.lt_ge_cases j (length l)) as [Hj|Hj].
  - destruct l as [|a l]; [cbn in Hj; lia|].
    rewrite (nth_indep _ _ (f a)) by (now rewrite map_length).
    rewrite map_nth. apply H. now apply nth_In.
  - apply nth_overflow. now rewrite map_length.
Qed.

Lemma sphere_stuck nt nm th zl t :
  wf_len t -> (forall p, In p (t_pos t) -> outside (th / 2) p = false) ->
  event_indices nt nm th zl sphere t = (0%nat, 0%nat, length (t_dir t), 0%nat).
Proof.
  intros Hw Hin.
  destruct (find_valid_exits nt nm th zl sphere t) as [[ps ng] ti] eqn:E.
  destruct (sphere_indices _ _ _ _ _ _ _ _ Hw E) as (r & tt & s & He & Hr & Ht & Hti & _).
  assert (Hno : never_true (map (outside (th / 2)) (tl (t_pos t)))).
  { apply never_map. intros a Ha. apply Hin. destruct (t_pos t); [destruct Ha|now right]. }
  assert (G : forall x, (x = 0%nat \/ exists k, x = S k /\ first_true (map (outside (th / 2)) (tl (t_pos t))) k) -> x = 0%nat).
  { intros x [Hx|(k & _ & Hk & _)]; [exact Hx|]. rewrite Hno in Hk. discriminate. }
  pose proof (G _ Hr) as Er. pose proof (G _ Ht) as Et. pose proof (G _ Hti) as Eti.
  destruct (trajectory_outcome _ _ _ _ _ _ _ _ _ Hw E) as (r' & t' & s' & He' & Ho).
  rewrite He in He'. injection He' as E1 E2 E3. rewrite He, Er, Et, Eti.
  f_equal. f_equal. rewrite E3.
  destruct Ho as [(_ & _ & _ & _ & Hs)|[(k & _ & _ & _ & Hr' & _)|(k & _ & _ & _ & _ & Ht' & _)]].
  - exact Hs.
  - exfalso. lia.
  - exfalso. lia.
Qed.

(** The trajectory a stuck one is restarted as. *)
Definition parked (w : R) (m : nat) : traj :=
  mk_traj (repeat vzero (S m)) (repeat vzero m) (repeat w m).

Lemma parked_wf w m : (0 < m)%nat -> wf_len (parked w m).
Proof. intros H. unfold wf_len, parked; cbn [t_pos t_dir t_w]. rewrite !repeat_length. auto. Qed.

Lemma outside_zero r : outside r vzero = false.
Proof. apply Rltb_false. unfold vzero; cbn [vx vy vz]. nra. Qed.

Lemma scatter1_zero t p : scatter1 vzero t p = vzero.
Proof. unfold scatter1, vzero; cbn. apply f_equal2; [apply f_equal2|]; ring. Qed.

Lemma vadd_zero v : vadd vzero v = v.
Proof. destruct v as [[x y] z]. unfold vadd, vzero; cbn. f_equal; [f_equal|]; ring. Qed.

Lemma scatter_zero m : forall angs ks, scatter (vzero :: repeat vzero m) angs = Ok ks -> ks = repeat vzero (S m).
Proof.
  intros angs ks H. unfold scatter in H.
  assert (G : forall m angs ks, scatter_loop vzero (repeat vzero m) angs = Ok ks -> ks = repeat vzero m).
  { clear. induction m as [|m IH]; intros angs ks H; cbn in H; [injection H as <-; reflexivity|].
    destruct angs as [|[t p] angs]; [discriminate|]. rewrite scatter1_zero in H.
    destruct (scatter_loop vzero (repeat vzero m) angs) as [l|e] eqn:E; [|discriminate].
    cbn in H. injection H as <-. rewrite (IH _ _ E). reflexivity. }
  destruct (scatter_loop vzero (repeat vzero m) angs) as [l|e] eqn:E; [|cbn in H; discriminate].
  cbn in H. injection H as <-. rewrite (G _ _ _ E). reflexivity.
Qed.

Lemma vcumsum_zero l : Forall (fun v => v = vzero) l -> vcumsum_from vzero l = repeat vzero (length l).
Proof.
  induction 1 as [|v l -> Hl IH]; cbn; [reflexivity|]. rewrite vadd_zero, IH. reflexivity.
Qed.

Lemma vscale_zero s : vscale s vzero = vzero.
Proof. unfold vscale, vzero; cbn. f_equal; [f_equal|]; ring. Qed.

Lemma move_zero m step : length step = m ->
  move (vzero :: repeat vzero m) (repeat vzero m) step = repeat vzero (S m).
Proof.
  intros H. unfold move.
  rewrite vcumsum_zero.
  - cbn [length]. rewrite map2_length, repeat_length, H, Nat.min_id. reflexivity.
  - constructor; [reflexivity|]. subst m. induction step as [|s st IH]; cbn; constructor.
    + apply vscale_zero.
    + exact IH.
Qed.

Lemma rerun_parked radius mu angs steps i t w :
  0 < radius -> (0 < length (t_pos t))%nat -> mu = 0 ->
  rerun_traj radius mu angs steps i t 0 w = Ok (parked w (length (t_pos t))).
Proof.
  intros Hr Hl Hmu. unfold rerun_traj. cbn [Nat.ltb Nat.leb].
  rewrite !vselect_zero, (inf_to_large_zero radius Hr). cbn [Nat.eqb].
  set (nev := length (t_pos t)) in *.
  assert (Ei : find_vec_sphere_intersect (vx vzero, vy vzero, vz vzero - 0)
                 (vx vzero, vy vzero, vz vzero - 0) radius = vzero).
  { unfold vzero; cbn [vx vy vz]. rewrite Rminus_0_r. fold vzero.
    unfold find_vec_sphere_intersect. rewrite vsub_zero, normalize1_zero. reflexivity. }
  cbv zeta. rewrite Ei.
  match goal with |- context [rotate_reflect vzero ?n] =>
    replace (rotate_reflect vzero n) with vzero end.
  2: { unfold rotate_reflect, vzero; cbn [vx vy vz]. f_equal; [f_equal|]; ring. }
  replace (vx vzero, vy vzero, vz vzero + 0) with vzero
    by (unfold vzero; cbn [vx vy vz]; f_equal; ring).
  destruct (proj1 (scatter_succeeds vzero (repeat vzero (nev - 1)) (map (angs i) (seq 0 nev)))) as [ks Hks].
  { rewrite repeat_length, map_length, seq_length. lia. }
  rewrite Hks. cbn [bind]. apply scatter_zero in Hks. replace (S (nev - 1)) with nev in Hks by lia. subst ks.
  rewrite move_zero by (now rewrite map_length, seq_length).
  unfold parked. rewrite Hmu, absorb_zero; [reflexivity|]. now rewrite repeat_length, map_length, seq_length.
Qed.

(** A single trajectory that never leaves the sphere: the first pass. *)
Lemma stuck_first P ft t w :
  good_params P 1 -> p_boundary P = sphere -> 0 < p_thickness P ->
  p_gonio P = None -> p_kz0rot P = None -> p_kz0refl P = None ->
  wf_len t -> (forall p, In p (t_pos t) -> outside (p_thickness P / 2) p = false) ->
  t_w t = repeat w (length (t_dir t)) ->
  (ft = true \/ fst (sphere_entry_angle (p_thickness P) t 1) <= PI / 2) ->
  exists inc di,
    inc_ok ft 1 inc
    /\ first_pass P ft [t] = Ok (Some (sl_pass P ft 1 (fun _ => t) inc di))
    /\ sl_rw P (fun _ => t) inc 0 = 0 /\ sl_tw P (fun _ => t) inc 0 = 0
    /\ sl_rf P (fun _ => t) inc 0 = 0 /\ sl_tf P (fun _ => t) inc 0 = 0
    /\ sl_sw P (fun _ => t) inc 0 = inc 0%nat * w
    /\ sl_ri P (fun _ => t) 0 = 0%nat /\ sl_ti P (fun _ => t) 0 = 0%nat
    /\ i_tir (sl_ev P (fun _ => t) 0) = 0%nat /\ sl_tr P (fun _ => t) 0 = t
    /\ (ft = false -> fresnel_correct_enter (p_nmedium P) (p_nfront P) (choose_n_tir P) sphere
          (p_thickness P) [t] false None = Ok (Some [inc 0%nat])).
Proof.
  intros Hg Hb Hth Hgo Hk1 Hk2 Hw Hin Hrep Hent.
  set (T := fun _ : nat => t).
  pose proof (sphere_stuck (sl_nt P) (p_nmedium P) (p_thickness P) (p_zlow P) t Hw Hin) as Hev.
  assert (Eev : sl_ev P T 0 = (0%nat, 0%nat, length (t_dir t), 0%nat)) by (unfold sl_ev, T; rewrite Hb; exact Hev).
  assert (Etr : sl_tr P T 0 = t) by (unfold sl_tr; now rewrite Hgo).
  assert (Eri : sl_ri P T 0 = 0%nat) by (unfold sl_ri; rewrite Hgo, Eev; reflexivity).
  assert (Eti : sl_ti P T 0 = 0%nat) by (unfold sl_ti; rewrite Eev; reflexivity).
  assert (Ear : exit_angle P t 0 = PI / 2).
  { unfold exit_angle. rewrite Hb, sphere_exit_angle_zero by exact Hth. reflexivity. }
  destruct (first_pass_forward P ft 1 T Hg Hk1 Hk2 Hgo) as [q Hq].
  { rewrite Hb. destruct Hent as [H|H]; [now left|right]. intros i _. exact H. }
  { intros i Hi. replace i with 0%nat by lia. unfold sl_ar, sl_at. rewrite Etr, Eri, Eti, Ear. lra. }
  destruct (first_pass_slots_enter P ft 1 T q Hg Hq) as (inc & di & Hinc & _ & E & _ & _ & Hen).
  cbn [seq map] in Hq. unfold T in Hq at 1.
  assert (Erw : sl_rw P T inc 0 = 0) by (unfold sl_rw; rewrite Eri; cbn; ring).
  assert (Etw : sl_tw P T inc 0 = 0) by (unfold sl_tw; rewrite Eti; cbn; ring).
  exists inc, di. subst q. split; [exact Hinc|]. split; [exact Hq|].
  split; [exact Erw|]. split; [exact Etw|].
  split; [unfold sl_rf, sl_rp; rewrite Erw; ring|].
  split; [unfold sl_tf, sl_tp; rewrite Etw; ring|].
  split.
  { unfold sl_sw, sl_si. rewrite Eev, Etr, Hrep. cbn [i_stuck].
    rewrite select_repeat; [reflexivity|]. destruct Hw as (_ & _ & Hp). lia. }
  split; [exact Eri|]. split; [exact Eti|]. split; [rewrite Eev; reflexivity|]. split; [exact Etr|].
  intros ->. cbn [seq map] in Hen. rewrite Etr, Hb, Hk1 in Hen. exact Hen.
Qed.

Lemma parked_gens k : forall angs steps P d m w,
  good_params P 1 -> p_boundary P = sphere -> 0 < p_thickness P ->
  p_gonio P = None -> p_kz0rot P = None -> p_kz0refl P = None ->
  p_muabs P = 0 -> p_run P = true -> p_maxdepth P = 20%nat -> p_maxstuck P < w ->
  (0 < m)%nat -> (d + k = 20)%nat ->
  exists o, calc_refl_trans (S k) angs steps P true d [parked w m] = Ok (Some o)
    /\ o_generations o = k.
Proof.
  induction k as [|k IH]; intros angs steps P d m w Hg Hb Hth Hgo Hk1 Hk2 Hmu Hrun Hmd Hst Hm Hd;
  destruct (stuck_first P true (parked w m) w Hg Hb Hth Hgo Hk1 Hk2 (parked_wf w m Hm))
    as (inc & di & Hinc & Hq & Hrw & Htw & Hrf & Htf & Hsw & Hri & Hti & Htir & Htr & _);
  try (intros p Hp; apply repeat_spec in Hp; subst p; apply outside_zero);
  try (cbn [parked t_w t_dir]; now rewrite repeat_length);
  try (now left).
  all: match goal with |- context [calc_refl_trans (S ?k1)] =>
      remember k1 as fu eqn:Efu; cbn [calc_refl_trans]; subst fu end.
  all: rewrite Hq; cbn [bind].
  - replace (Nat.ltb d (p_maxdepth P)) with false by (symmetry; apply Nat.ltb_ge; lia).
    rewrite Hrun. cbn [andb].
    unfold sl_pass, distribute_ambig_traj_weights. rewrite Hb, Hgo.
    cbn [q_exit q_refl_det q_inc_refl_det q_trans_det q_stuck sl_exit x_refl_fresnel x_trans_fresnel].
    eexists. split; [reflexivity|reflexivity].
  - set (T := fun _ : nat => parked w m) in *.
    destruct (Hinc 0%nat ltac:(lia)) as [_ Hi1]. specialize (Hi1 eq_refl).
    assert (Hleft : q_total_stuck (sl_pass P true 1 T inc di) = w).
    { cbn. unfold sl_left. rewrite Hrf, Htf, Hsw, Hi1. field. }
    rewrite Hleft, Hrun, Hmd.
    replace (Nat.ltb d 20) with true by (symmetry; apply Nat.ltb_lt; lia).
    replace (Rltb (p_maxstuck P) w) with true by (symmetry; now apply Rltb_true).
    cbn [andb].
    unfold sl_pass. cbn [q_exit q_refl_det q_inc_refl_det q_trans_det q_stuck q_refl_i q_trans_i q_tir_i q_trs
       sl_exit x_refl_fresnel x_trans_fresnel seq map map2 combine rerun_all].
    rewrite Hri, Hti, Htir, Htr, Hrf, Htf, Hsw, Hi1. cbn [Nat.add].
    rewrite rerun_parked; [|lra|unfold parked; cbn [t_pos]; rewrite repeat_length; lia|exact Hmu].
    cbn [bind]. replace (0 + 0 + 1 * w) with w by ring.
    destruct (IH angs steps (nested_params P) (S d) (length (t_pos (parked w m))) w) as (o & -> & Ho);
      try reflexivity; try assumption.
    + eapply nested_good; eauto.
    + unfold parked; cbn [t_pos]; rewrite repeat_length; lia.
    + lia.
    + cbn [bind]. eexists. split; [reflexivity|]. cbn [make_outcome o_generations]. now rewrite Ho.
Qed.


Lemma still_good depth : good_params (still_sphere depth) 1.
Proof.
  unfold good_params, still_sphere, choose_n_tir; cbn. rewrite Rabs_R1.
  repeat split; try lra; discriminate.
Qed.

Lemma inner_entry_angle : sphere_entry_angle 2 inner_traj 1 = (0, (0, 0, 1)).
Proof.
  unfold sphere_entry_angle, inner_traj, centred. cbn [t_pos t_dir map vselect nth vx vy vz].
  assert (E : normalize1 (- 0, - 0, - (0 - 2 / 2)) = Some (0, 0, 1)).
  { replace (- 0, - 0, - (0 - 2 / 2)) with (0, 0, 1) by (f_equal; [f_equal|]; field).
    assert (M : magnitude (0, 0, 1) = 1) by (unfold magnitude; cbn [vx vy vz];
      rewrite Rabs_R0, Rabs_R1; replace (0 ^ 2 + 0 ^ 2 + 1 ^ 2) with 1 by ring; apply sqrt_1).
    unfold normalize1, div_vec. rewrite M. replace (Reqb 1 0) with false.
    - cbn. f_equal. f_equal; [f_equal|]; field.
    - symmetry. unfold Reqb. destruct (Req_EM_T 1 0); [lra|reflexivity]. }
  unfold sphere_angle_norm. rewrite E. cbn [vx vy vz nan_to_num].
  f_equal. replace (0 * 0 + 0 * 0 + 1 * 1) with 1 by ring. apply acos_1.
Qed.

Lemma refl_no_contrast n t : 0 < n -> 0 <= t < PI / 2 -> fresnel_refl1 n n t = (0, 0).
Proof.
  intros Hn Ht. unfold fresnel_refl1. replace (n / n) with 1 by (field; lra).
  replace (Rltb 1 1) with false by (symmetry; apply Rltb_false; lra). cbn [andb].
  assert (Hc : 0 < cos t) by (apply cos_gt_0; lra).
  assert (E : sqrt (Rabs (n ^ 2 - (n * sin t) ^ 2)) = n * cos t).
  { replace (n ^ 2 - (n * sin t) ^ 2) with ((n * cos t) ^ 2).
    - rewrite Rabs_pos_eq by nra. apply sqrt_pow2. nra.
    - pose proof (sin2_cos2 t) as H. unfold Rsqr in H. nra. }
  rewrite E. unfold abs_ratio_sq.
  replace (n * (n * cos t) - n ^ 2 * cos t) with 0 by ring.
  replace (n * cos t - n * cos t) with 0 by ring.
  assert (0 < n * cos t) by nra. assert (0 < n * (n * cos t)) by nra.
  replace (Reqb (n * (n * cos t) + n ^ 2 * cos t) 0) with false.
  2: { symmetry. unfold Reqb. destruct (Req_EM_T _ 0); [nra|reflexivity]. }
  replace (Reqb (n * cos t + n * cos t) 0) with false.
  2: { symmetry. unfold Reqb. destruct (Req_EM_T _ 0); [nra|reflexivity]. }
  unfold Rdiv. rewrite !Rmult_0_l, Rabs_R0. f_equal; ring.
Qed.

Lemma pf1_no_contrast n t : 0 < n -> 0 <= t < PI / 2 -> pf1 n None n t = / (1 + EPS).
Proof.
  intros Hn Ht. unfold pf1, theta_inside, fresnel_trans1.
  assert (E : refraction t n n = Some t).
  { unfold refraction. replace (n / n * sin t) with (sin t) by (field; lra).
    replace (Rltb 1 (Rabs (sin t))) with false.
    - f_equal. apply asin_sin. pose proof PI_RGT_0. lra.
    - symmetry. apply Rltb_false. apply Rabs_le. apply SIN_bound. }
  rewrite E, !refl_no_contrast by assumption. cbn [fst snd]. pose proof EPS_pos. field. lra.
Qed.

(** The depth limit of the user is honoured by the first call only. *)
Lemma depth_refuted_l : forall m angs steps, (0 < m)%nat ->
  exists o, calc_refl_trans 21 angs steps (still_sphere m) false 0 [inner_traj] = Ok (Some o)
    /\ o_generations o = 20%nat.
Proof.
  intros m angs steps Hm. set (P := still_sphere m).
  assert (Hent : fst (sphere_entry_angle (p_thickness P) inner_traj 1) <= PI / 2).
  { unfold P; cbn [p_thickness still_sphere]. rewrite inner_entry_angle. cbn. pose proof PI_RGT_0. lra. }
  assert (Hw : wf_len inner_traj) by (repeat split; cbn; lia).
  assert (Hin : forall p, In p (t_pos inner_traj) -> outside (p_thickness P / 2) p = false).
  { intros p [<-|[<-|[]]]; apply Rltb_false; unfold P; cbn; lra. }
  destruct (stuck_first P false inner_traj 1 (still_good m) eq_refl ltac:(cbn; lra) eq_refl eq_refl eq_refl
     Hw Hin eq_refl (or_intror Hent))
    as (inc & di & Hinc & Hq & Hrw & Htw & Hrf & Htf & Hsw & Hri & Hti & Htir & Htr & Hen).
  specialize (Hen eq_refl).
  assert (Ei : inc 0%nat = / (1 + EPS)).
  { unfold fresnel_correct_enter, get_all in Hen. cbn [map existsb is_none somes orb nan_to_num get_angles map2] in Hen.
    change (p_thickness P) with 2 in Hen. rewrite inner_entry_angle in Hen. cbn [fst] in Hen.
    rewrite pass_frac_ok in Hen by (constructor; [pose proof PI_RGT_0; lra|constructor]).
    cbn [bind map] in Hen. injection Hen as <-.
    assert (Ent : choose_n_tir P = 1) by (unfold choose_n_tir, P; cbn; apply Rabs_R1).
    rewrite Ent. apply pf1_no_contrast; pose proof PI_RGT_0; lra. }
  assert (Hpos : 1 / 100 < inc 0%nat).
  { rewrite Ei. assert (EPS < 1) by (unfold EPS; apply Rmult_lt_reg_r with (10 ^ 9); [lra|]; rewrite Rinv_l; lra).
    pose proof EPS_pos. apply Rmult_lt_reg_r with (1 + EPS); [lra|]. rewrite Rinv_l by lra. lra. }
  remember 20%nat as fu eqn:Efu. cbn [calc_refl_trans]. rewrite Hq. cbn [bind].
  set (T := fun _ : nat => inner_traj) in *.
  assert (Hleft : q_total_stuck (sl_pass P false 1 T inc di) = inc 0%nat).
  { cbn. unfold sl_left. rewrite Hrf, Htf, Hsw. field. }
  rewrite Hleft. change (p_run P) with true. change (p_maxdepth P) with m. change (p_maxstuck P) with (1 / 100).
  replace (Nat.ltb 0 m) with true by (symmetry; apply Nat.ltb_lt; lia).
  replace (Rltb (1 / 100) (inc 0%nat)) with true by (symmetry; now apply Rltb_true).
  cbn [andb].
  unfold sl_pass. cbn [q_exit q_refl_det q_inc_refl_det q_trans_det q_stuck q_refl_i q_trans_i q_tir_i q_trs
     sl_exit x_refl_fresnel x_trans_fresnel seq map map2 combine rerun_all].
  rewrite Hri, Hti, Htir, Htr, Hrf, Htf, Hsw. cbn [Nat.add].
  rewrite rerun_parked; [|unfold P; cbn; lra|cbn; lia|reflexivity].
  cbn [bind].
  destruct (parked_gens 19 angs steps (nested_params P) 1 (length (t_pos inner_traj)) (0 + 0 + inc 0%nat * 1))
    as (o & Ho & Hgo); try reflexivity.
  - apply (nested_good P 1 1), still_good.
  - unfold P; cbn; lra.
  - unfold P; cbn. lra.
  - cbn; lia.
  - rewrite Efu, Ho. cbn [bind]. eexists. split; [reflexivity|]. cbn [make_outcome o_generations]. now rewrite Hgo.
Qed.

(* ------------------------------------------------------------------ *)
(** * Weights over arrays (C27, C29) *)

Lemma outcome_weights_spec ns nm th zl b inc trs rw tw sw aw :
  length inc = length trs -> Forall fraction inc ->
  Forall (fun t => wf_len t /\ Forall fraction (t_w t)) trs ->
  let ev := map (event_indices ns nm th zl b) trs in
  calc_outcome_weights inc (map i_refl ev) (map i_trans ev) (map i_stuck ev) (map t_w trs)
    = (rw, tw, sw, aw) ->
  forall i, (i < length trs)%nat ->
    let r := nth i rw 0 in let t := nth i tw 0 in let s := nth i sw 0 in let a := nth i aw 0 in
    0 <= r /\ 0 <= t /\ 0 <= s /\ 0 <= a
    /\ r + t + s + a = nth i inc 0
    /\ (r = 0 \/ t = 0) /\ (r = 0 \/ s = 0) /\ (t = 0 \/ s = 0)
    /\ (Forall (fun w => w = 1) (t_w (nth i trs tdummy)) -> a = 0).
Proof.
  intros Hl Hinc Htr ev H i Hi. unfold calc_outcome_weights, select_all in H.
  rewrite (list_as_map 0 inc), Hl in H. subst ev. rewrite (list_as_map tdummy trs) in H.
  rewrite ?map_map, ?map2_maps, ?map_length, ?seq_length, ?map2_maps in H.
  injection H as <- <- <- <-. cbv zeta.
  assert (G : forall f : nat -> R, nth i (map f (seq 0 (length trs))) 0 = f i).
  { intros f. rewrite (nth_indep _ 0 (f 0%nat)) by (now rewrite map_length, seq_length).
    rewrite map_nth, seq_nth by exact Hi. reflexivity. }
  rewrite !G. clear G.
  rewrite Forall_forall in Htr. destruct (Htr (nth i trs tdummy) (nth_In _ _ Hi)) as [Hw Hf].
  assert (Hin : fraction (nth i inc 0)).
  { rewrite Forall_forall in Hinc. apply Hinc, nth_In. lia. }
  set (t := nth i trs tdummy) in *. set (x := nth i inc 0) in *.
  destruct (find_valid_exits ns nm th zl b t) as [[ps ng] ti] eqn:E.
  destruct (trajectory_outcome _ _ _ _ _ _ _ _ _ Hw E) as (r & tt & s & He & Ho).
  rewrite He. cbn [i_refl i_trans i_stuck].
  assert (Hs : forall ev, 0 <= select_col (t_w t) ev <= 1).
  { intros ev. apply select_col_range; [lra|exact Hf]. }
  assert (H1 : forall ev, (0 < ev <= length (t_dir t))%nat ->
     Forall (fun w => w = 1) (t_w t) -> select_col (t_w t) ev = 1).
  { intros ev Hev Hone. destruct ev as [|k]; [lia|]. cbn [select_col]. rewrite Forall_forall in Hone.
    apply Hone, nth_In. destruct Hw as (_ & -> & _). lia. }
  destruct Hw as (_ & _ & Hpos). destruct Hin as [Hx0 Hx1].
  destruct Ho as [(_ & _ & -> & -> & ->)|[(k & _ & _ & Hk & -> & -> & ->)|(k & _ & _ & Hk & -> & -> & ->)]].
  - specialize (Hs (length (t_dir t))). specialize (H1 (length (t_dir t)) ltac:(lia)).
    cbn [select_col] in *. set (y := select_col (t_w t) (length (t_dir t))) in *.
    assert (0 <= x * y <= x) by (split; nra).
    repeat split; try lra.
    all: try (left; ring). all: try (right; ring).
    all: try (intros Hone; rewrite (H1 Hone); ring).
  - specialize (Hs (S k)). specialize (H1 (S k) ltac:(lia)).
    change (select_col (t_w t) 0) with 0.
    set (y := select_col (t_w t) (S k)) in *.
    assert (0 <= x * y <= x) by (split; nra).
    repeat split; try lra.
    all: try (left; ring). all: try (right; ring).
    all: try (intros Hone; rewrite (H1 Hone); ring).
  - specialize (Hs (S k)). specialize (H1 (S k) ltac:(lia)).
    change (select_col (t_w t) 0) with 0.
    set (y := select_col (t_w t) (S k)) in *.
    assert (0 <= x * y <= x) by (split; nra).
    repeat split; try lra.
    all: try (left; ring). all: try (right; ring).
    all: try (intros Hone; rewrite (H1 Hone); ring).
Qed.

Definition angle_of (b : boundary) (th : R) (t : traj) (ev : nat) : R :=
  match b with film => film_exit_angle t ev | sphere => fst (sphere_exit_angle th t ev) end.

Lemma get_angles_of b th trs idx : get_angles idx b trs th None = map2 (angle_of b th) trs idx.
Proof. destruct b; reflexivity. Qed.

Lemma angle_of_nonneg b th t ev : 0 <= angle_of b th t ev.
Proof.
  destruct b; unfold angle_of.
  - apply film_angle_range.
  - unfold sphere_exit_angle. match goal with |- context [inf_to_large ?a ?b ?c] => destruct (inf_to_large a b c) end. unfold sphere_angle_norm. cbn. apply acos_nonneg.
Qed.

Lemma film_exit_never_raises nt nm nf nb ri ti rw tw aw th trs ft :
  exists x, fresnel_correct_exit nt nm nf nb ri ti rw tw aw film th trs ft = Ok x.
Proof.
  unfold fresnel_correct_exit.
  assert (G : forall idx, Forall (fun t => t <= PI / 2) (get_angles idx film trs th None)).
  { intros idx. rewrite get_angles_of. apply Forall_forall. intros y Hy.
    revert idx Hy. induction trs as [|t l IH]; intros [|i idx] Hy; cbn in Hy; try contradiction.
    destruct Hy as [<-|Hy]; [apply film_angle_range|eauto]. }
  rewrite !pass_frac_ok by apply G. cbn [bind]. eauto.
Qed.

Lemma exit_split_spec nt nm nf nb ri ti rw tw aw b th trs ft x :
  0 < nt -> 0 < nm -> (forall m, nf = Some m -> 0 < m) -> (forall m, nb = Some m -> 0 < m) ->
  length ri = length trs -> length ti = length trs -> length rw = length trs ->
  length tw = length trs -> length aw = length trs ->
  Forall (fun w => 0 <= w) rw -> Forall (fun w => 0 <= w) tw -> Forall (fun w => 0 <= w) aw ->
  (ft = true -> forall i, nth i rw 0 + nth i tw 0 <= 1) ->
  fresnel_correct_exit nt nm nf nb ri ti rw tw aw b th trs ft = Ok x ->
  (forall i, (i < length trs)%nat ->
     0 <= nth i (x_refl_pass x) 0 <= nth i rw 0 /\ 0 <= nth i (x_trans_pass x) 0 <= nth i tw 0
     /\ 0 <= nth i (x_refl_fresnel x) 0 /\ 0 <= nth i (x_trans_fresnel x) 0
     /\ nth i (x_refl_pass x) 0 + nth i (x_refl_fresnel x) 0 = nth i rw 0
     /\ nth i (x_trans_pass x) 0 + nth i (x_trans_fresnel x) 0 = nth i tw 0)
  /\ (forall u v, x_refl_frac x = Some u -> x_trans_frac x = Some v -> 0 <= u /\ 0 <= v /\ u + v <= 1).
Proof.
  intros Hnt Hnm Hnf Hnb Lri Lti Lrw Ltw Law Prw Ptw Paw Hft H.
  set (n := length trs) in *.
  unfold fresnel_correct_exit in H.
  rewrite (list_as_map tdummy trs), (list_as_map 0%nat ri), (list_as_map 0%nat ti),
    (list_as_map 0 rw), (list_as_map 0 tw), (list_as_map 0 aw), Lri, Lti, Lrw, Ltw, Law in H.
  fold n in H. rewrite !get_angles_of, !map2_maps in H.
  set (a1 := fun i => angle_of b th (nth i trs tdummy) (nth i ri 0%nat)) in *.
  set (a2 := fun i => angle_of b th (nth i trs tdummy) (nth i ti 0%nat)) in *.
  destruct (fresnel_pass_frac nt nf nm (map a1 (seq 0 n))) as [p1|e] eqn:E1; [|discriminate].
  cbn [bind] in H.
  destruct (fresnel_pass_frac nt nb nm (map a2 (seq 0 n))) as [p2|e] eqn:E2; [|discriminate].
  cbn [bind] in H.
  apply pass_frac_inv in E1 as [-> F1]. apply pass_frac_inv in E2 as [-> F2].
  rewrite !map_map, !map2_maps in H. rewrite !map_length, !seq_length in H.
  rewrite ?map2_maps, !Rsum_total in H.
  assert (B1 : forall i, (i < n)%nat -> 0 <= pf1 nt nf nm (a1 i) < 1).
  { intros i Hi. rewrite Forall_map, Forall_forall in F1. apply pf1_bounds; auto.
    split; [apply angle_of_nonneg|apply F1, in_seq; lia]. }
  assert (B2 : forall i, (i < n)%nat -> 0 <= pf1 nt nb nm (a2 i) < 1).
  { intros i Hi. rewrite Forall_map, Forall_forall in F2. apply pf1_bounds; auto.
    split; [apply angle_of_nonneg|apply F2, in_seq; lia]. }
  assert (NN : forall l, Forall (fun w => 0 <= w) l -> forall i, 0 <= nth i l 0).
  { intros l Hl i. destruct (Nat.lt_ge_cases i (length l)) as [Hi|Hi].
    - rewrite Forall_forall in Hl. apply Hl, nth_In, Hi.
    - rewrite nth_overflow by exact Hi. lra. }
  pose proof (NN _ Prw) as Nr. pose proof (NN _ Ptw) as Nt. pose proof (NN _ Paw) as Na. clear NN.
  set (P1 := fun i => nth i rw 0 * pf1 nt nf nm (a1 i)) in *.
  set (P2 := fun i => nth i tw 0 * pf1 nt nb nm (a2 i)) in *.
  assert (R1 : forall i, (i < n)%nat -> 0 <= P1 i <= nth i rw 0).
  { intros i Hi. specialize (B1 i Hi). specialize (Nr i). unfold P1. nra. }
  assert (R2 : forall i, (i < n)%nat -> 0 <= P2 i <= nth i tw 0).
  { intros i Hi. specialize (B2 i Hi). specialize (Nt i). unfold P2. nra. }
  injection H as <-. cbn [x_refl_pass x_trans_pass x_refl_fresnel x_trans_fresnel x_refl_frac x_trans_frac].
  split.
  - intros i Hi.
    assert (G : forall f : nat -> R, nth i (map f (seq 0 n)) 0 = f i).
    { intros f. rewrite (nth_indep _ 0 (f 0%nat)) by (now rewrite map_length, seq_length).
      rewrite map_nth, seq_nth by exact Hi. reflexivity. }
    rewrite !G. specialize (R1 i Hi). specialize (R2 i Hi). unfold P1, P2 in *; cbv beta in *; repeat split; lra.
  - intros u v Hu Hv. apply ndiv_some in Hu as [Hk ->]. apply ndiv_some in Hv as [_ ->].
    rewrite ?(Rsum_total (map P1 (seq 0 n))), ?(Rsum_total (map P2 (seq 0 n))),
      ?(Rsum_total (map (fun i => nth i aw 0 + nth i rw 0 * pf1 nt nf nm (a1 i)
                                  + nth i tw 0 * pf1 nt nb nm (a2 i)) (seq 0 n))) in *.
    assert (T1 : 0 <= total (map P1 (seq 0 n))).
    { apply total_map_nonneg. intros i Hi. apply in_seq in Hi. apply R1. lia. }
    assert (T2 : 0 <= total (map P2 (seq 0 n))).
    { apply total_map_nonneg. intros i Hi. apply in_seq in Hi. apply R2. lia. }
    set (K := if ft then INR n else total (map (fun i => nth i aw 0 + P1 i + P2 i) (seq 0 n))) in *.
    match goal with |- context [_ / ?k] => change k with K end.
    assert (HK : total (map P1 (seq 0 n)) + total (map P2 (seq 0 n)) <= K).
    { rewrite <- total_map_plus. unfold K. destruct ft.
      - eapply Rle_trans; [apply (sum_slots _ _ 1)|rewrite seq_length; lra].
        intros i Hi. apply in_seq in Hi. specialize (R1 i ltac:(lia)). specialize (R2 i ltac:(lia)).
        specialize (Hft eq_refl i). lra.
      - apply total_map_le. intros i Hi. specialize (Na i). lra. }
    assert (0 < K) by (destruct (Rle_lt_or_eq_dec 0 K ltac:(lra)) as [?|E]; [assumption|exfalso; apply Hk; symmetry; exact E]).
    assert (0 < / K) by (apply Rinv_0_lt_compat; lra).
    split; [apply Rmult_le_pos; lra|]. split; [apply Rmult_le_pos; lra|].
    rewrite <- Rdiv_plus_distr. apply Rmult_le_reg_r with K; [lra|].
    unfold Rdiv. rewrite Rmult_assoc, Rinv_l by lra. lra.
Qed.

(* ------------------------------------------------------------------ *)
(** * Films: errors and NaN (C33) *)

Lemma enter_film_ok nm nf nt th trs ft kz :
  exists r, fresnel_correct_enter nm nf nt film th trs ft kz = Ok r.
Proof.
  unfold fresnel_correct_enter. destruct ft; [eauto|].
  destruct (get_all _) as [d|]; [|eauto]. cbn [get_angles].
  rewrite pass_frac_ok; [cbn [bind]; eauto|].
  apply Forall_forall. intros y Hy. apply in_map_iff in Hy as (c & <- & _). apply film_angle_range.
Qed.

Lemma first_pass_film_ok P ft trs :
  p_boundary P = film -> (p_kz0rot P = None <-> p_kz0refl P = None) ->
  exists q, first_pass P ft trs = Ok q.
Proof.
  intros Hb Hk. unfold first_pass.
  assert (Hk2 : (p_kz0rot P = None /\ p_kz0refl P = None)
               \/ exists a b, p_kz0rot P = Some a /\ p_kz0refl P = Some b).
  { destruct (p_kz0rot P), (p_kz0refl P); eauto; exfalso; destruct Hk as [H1 H2].
    - specialize (H2 eq_refl). discriminate.
    - specialize (H1 eq_refl). discriminate. }
  destruct Hk2 as [[E1 E2]|(a & b & E1 & E2)]; rewrite E1, E2, Hb; cbv zeta;
  match goal with |- context [fresnel_correct_enter ?a ?b ?c film ?e ?f ?g ?h] =>
      destruct (enter_film_ok a b c e f g h) as [[r|] ->] end; cbn [bind]; eauto;
  match goal with |- context [calc_outcome_weights ?a ?b ?c ?d ?e] =>
      destruct (calc_outcome_weights a b c d e) as [[[w1 w2] w3] w4] end;
  match goal with |- context [fresnel_correct_exit ?a ?b ?c ?d ?e ?f ?g ?h ?i film ?k ?l ?m] =>
      destruct (film_exit_never_raises a b c d e f g h i k l m) as [x ->] end; cbn [bind];
  destruct (detect_corrected_traj _ _ _ _ _ _ _ _ _ _ _ _ _) as [[[[d1 d2] d3] d4] d5]; eauto.
Qed.

Lemma film_never_raises fuel angs steps P ft d trs :
  p_boundary P = film -> (p_kz0rot P = None <-> p_kz0refl P = None) -> p_run P = false ->
  exists oo, calc_refl_trans (S fuel) angs steps P ft d trs = Ok oo.
Proof.
  intros Hb Hk Hr. cbn [calc_refl_trans].
  destruct (first_pass_film_ok P ft trs Hb Hk) as [[q|] ->]; cbn [bind]; [|eauto].
  rewrite Hr. cbn [andb].
  destruct (distribute_ambig_traj_weights _ _ _ _ _ _ _ _ _ _ _ _) as [[[[r t] rp] tp]|]; eauto.
Qed.

Lemma film_all_stuck_nan fuel angs steps P d n T :
  good_params P n -> p_boundary P = film -> p_run P = false -> p_gonio P = None ->
  (p_kz0rot P = None <-> p_kz0refl P = None) ->
  (forall i, (i < n)%nat -> wf_len (T i) /\ Forall (fun w => w = 1) (t_w (T i))
     /\ exists ti, event_indices (choose_n_tir P) (p_nmedium P) (p_thickness P) (p_zlow P) film (T i)
                   = (0%nat, 0%nat, length (t_dir (T i)), ti)) ->
  calc_refl_trans (S fuel) angs steps P false d (map T (seq 0 n)) = Ok None.
Proof.
  intros Hg Hb Hr Hgo Hk HT. cbn [calc_refl_trans].
  destruct (first_pass_film_ok P false (map T (seq 0 n)) Hb Hk) as [[q|] Hq]; rewrite Hq; cbn [bind]; [|reflexivity].
  destruct (first_pass_slots P false n T q Hg Hq) as (inc & di & Hinc & Hdi & -> & _).
  rewrite Hr. cbn [andb]. unfold sl_pass.
  cbn [q_exit q_refl_det q_inc_refl_det q_trans_det q_stuck sl_exit x_refl_fresnel x_trans_fresnel x_refl_frac].
  assert (EK : sl_known P false n T inc = 0).
  { unfold sl_known. rewrite (total_map_ext _ (fun _ => 0)).
    - rewrite total_map_const. ring.
    - intros i Hi. apply in_seq in Hi. destruct (HT i (proj2 Hi)) as (Hw & Hone & ti & Hev).
      assert (Eev : sl_ev P T i = (0%nat, 0%nat, length (t_dir (T i)), ti))
        by (unfold sl_ev, sl_nt; rewrite Hb; exact Hev).
      unfold sl_ab, sl_rp, sl_tp, sl_rw, sl_tw, sl_sw, sl_ri, sl_ti, sl_si, sl_tr.
      rewrite Hgo, Eev. cbn [i_refl i_trans i_stuck].
      change (select_col (t_w (T i)) 0) with 0.
      destruct Hw as (_ & Hlw & Hpos). destruct (length (t_dir (T i))) as [|k] eqn:El; [lia|].
      cbn [select_col]. rewrite Forall_forall in Hone.
      rewrite (Hone (nth k (t_w (T i)) 0)) by (apply nth_In; lia). ring. }
  rewrite EK. unfold distribute_ambig_traj_weights. rewrite Hb.
  replace (ndiv (total (map (sl_rp P T inc) (seq 0 n))) 0) with nan; [reflexivity|].
  unfold ndiv, Reqb. destruct (Req_EM_T 0 0); [reflexivity|congruence].
Qed.

(** Light that enters steeply enough and leaves gives a number. *)
Lemma film_entry_angle_back th : 0 <= th <= PI / 2 -> film_angle (cos th) = th.
Proof.
  intros H. unfold film_angle. rewrite Rabs_pos_eq by (apply cos_ge_0; lra).
  apply acos_cos. lra.
Qed.

Lemma steep_angle nt nm kz : 0 < nt -> 0 < nm <= nt -> -1 <= kz <= 1 -> steep nt nm kz ->
  0 <= film_angle kz < PI / 2 /\ nt * sin (film_angle kz) < nm.
Proof.
  intros Hnt Hnm Hkz Hs. unfold steep in Hs.
  rewrite film_angle_sin by exact Hkz. split; [|exact Hs].
  split; [apply film_angle_range|].
  destruct (Req_dec kz 0) as [->|Hne].
  { exfalso. replace (1 - 0 ^ 2) with 1 in Hs by ring. rewrite sqrt_1 in Hs. lra. }
  unfold film_angle. rewrite <- acos_0. apply acos_decreasing; try lra.
  - now apply Rabs_pos_lt.
  - apply Rabs_le; lra.
Qed.

Lemma film_enter_inc nm nf nt th n T inc i :
  0 < nt -> 0 < nm <= nt -> (forall m, nf = Some m -> nm <= m) -> (i < n)%nat -> wf_len (T i) -> dirs_ok (T i) ->
  fresnel_correct_enter nm nf nt film th (map T (seq 0 n)) false None = Ok (Some (map inc (seq 0 n))) ->
  steep nt nm (vz (nth 0 (t_dir (T i)) vzero)) -> 0 < inc i.
Proof.
  intros Hnt Hnm Hnf Hi Hw Hd He Hs.
  unfold fresnel_correct_enter in He. cbn [get_angles] in He.
  rewrite map_map in He.
  rewrite map2_maps, map_map in He.
  destruct (get_all _) as [d|] eqn:Ed; [|discriminate].
  apply get_all_map in Ed as [-> Hsome]. rewrite map_map in He.
  match type of He with bind ?b _ = _ => destruct b as [fr|e] eqn:Ef; [|discriminate] end.
  cbn [bind] in He. injection He as ->.
  apply pass_frac_inv in Ef as [Ef _]. rewrite map_map in Ef.
  assert (G : forall f g : nat -> R, map f (seq 0 n) = map g (seq 0 n) -> f i = g i).
  { intros f g E. apply (f_equal (fun l => nth i l (f 0%nat))) in E.
    rewrite map_nth, seq_nth in E by exact Hi. cbn in E. rewrite E.
    rewrite (nth_indep _ _ (g 0%nat)) by (now rewrite map_length, seq_length).
    rewrite map_nth, seq_nth by exact Hi. reflexivity. }
  rewrite (G _ _ Ef). clear G Ef.
  assert (Hin : In i (seq 0 n)) by (apply in_seq; lia). specialize (Hsome i Hin). cbv beta in Hsome.
  assert (Ea : film_exit_angle (T i) 1 = film_angle (vz (nth 0 (t_dir (T i)) vzero))).
  { unfold film_exit_angle. cbn [select_col]. rewrite (nth_map_in vz _ _ vzero); [reflexivity|].
    destruct Hw as (_ & _ & Hp). exact Hp. }
  rewrite Ea in *. set (kz := vz (nth 0 (t_dir (T i)) vzero)) in *.
  destruct (steep_angle nt nm kz Hnt Hnm (dirs_ok_nth _ _ Hd) Hs) as [Hr Hsin].
  destruct (refraction (film_angle kz) nt nm) as [tm|] eqn:Er; [|exfalso; apply Hsome; reflexivity].
  cbn [option_map nan_to_num].
  unfold refraction in Er. destruct (Rltb 1 (Rabs (nt / nm * sin (film_angle kz)))); [discriminate|].
  injection Er as <-.
  set (x := nt / nm * sin (film_angle kz)).
  assert (Hs0 : 0 <= sin (film_angle kz)) by (apply sin_ge_0; pose proof PI_RGT_0; lra).
  assert (Hi1 : 0 < / nm) by (apply Rinv_0_lt_compat; lra).
  assert (Hx : 0 <= x < 1).
  { unfold x, Rdiv. split.
    - assert (0 < nt * / nm) by (apply Rmult_lt_0_compat; lra). nra.
    - apply Rmult_lt_reg_r with nm; [lra|].
      replace (nt * / nm * sin (film_angle kz) * nm) with (nt * sin (film_angle kz)) by (field; lra). lra. }
  assert (Hax : 0 <= asin x < PI / 2).
  { split.
    - rewrite <- asin_0. destruct (Rle_lt_or_eq_dec 0 x (proj1 Hx)) as [Hlt|<-]; [|lra].
      left. apply asin_increasing; lra.
    - rewrite <- asin_1. apply asin_increasing; lra. }
  rewrite film_entry_angle_back by lra.
  apply pf1_pos; try lra.
  { intros m Em. specialize (Hnf m Em). split; [lra|]. rewrite sin_asin by lra. nra. }
  rewrite sin_asin by lra. unfold x.
  replace (nm * (nt / nm * sin (film_angle kz))) with (nt * sin (film_angle kz)) by (field; lra).
  assert (sin (film_angle kz) < 1).
  { rewrite <- sin_PI2. apply sin_increasing_1; pose proof PI_RGT_0; lra. }
  nra.
Qed.

Lemma film_number fuel angs steps P d n T j :
  good_params P n -> p_boundary P = film -> p_run P = false -> p_gonio P = None ->
  p_kz0rot P = None -> p_kz0refl P = None ->
  (forall m, p_nfront P = Some m -> p_nmedium P <= m) -> (forall m, p_nback P = Some m -> p_nmedium P <= m) ->
  (forall i, (i < n)%nat -> wf_len (T i) /\ dirs_ok (T i) /\ Forall fraction (t_w (T i))
     /\ steep (choose_n_tir P) (p_nmedium P) (vz (nth 0 (t_dir (T i)) vzero))) ->
  (j < n)%nat ->
  (exists r t s ti, event_indices (choose_n_tir P) (p_nmedium P) (p_thickness P) (p_zlow P) film (T j)
     = (r, t, s, ti) /\ (0 < r + t)%nat /\ 0 < nth (r + t - 1) (t_w (T j)) 0) ->
  exists o, calc_refl_trans (S fuel) angs steps P false d (map T (seq 0 n)) = Ok (Some o).
Proof.
  intros Hg Hb Hr Hgo Hk1 Hk2 Hnf Hnb HT Hj (r & t & s & ti & Hev & Hrt & Hwt).
  pose proof Hg as (Hnm & _ & Hnt & _).
  destruct (HT j Hj) as (Hwj & Hdj & Hfj & Hsj).
  destruct (find_valid_exits (choose_n_tir P) (p_nmedium P) (p_thickness P) (p_zlow P) film (T j)) as [[ps ng] tt] eqn:E.
  assert (Hle : p_nmedium P <= choose_n_tir P).
  { destruct (Rle_lt_dec (p_nmedium P) (choose_n_tir P)) as [H|H]; [exact H|exfalso].
    destruct (dense_no_exit (choose_n_tir P) (p_nmedium P) (p_thickness P) (p_zlow P) (T j) Hnt H Hwj) as [x Hx].
    rewrite Hev in Hx. injection Hx as -> -> _ _. lia. }
  destruct (first_pass_forward P false n T Hg Hk1 Hk2 Hgo) as [q Hq].
  { rewrite Hb. right. intros i Hi. destruct (HT i Hi) as (Hw & Hd & _ & Hs).
    destruct (steep_angle _ _ _ Hnt (conj Hnm Hle) (dirs_ok_nth _ 0 Hd) Hs) as [H1 H2].
    unfold film_exit_angle. cbn [select_col].
    rewrite (nth_map_in vz _ _ vzero) by (destruct Hw as (_ & _ & Hp); exact Hp).
    apply refraction_out; lra. }
  { intros i Hi. unfold sl_ar, sl_at, exit_angle. rewrite Hb.
    split; unfold film_exit_angle; apply film_angle_range. }
  cbn [calc_refl_trans]. rewrite Hq. cbn [bind].
  destruct (first_pass_slots_enter P false n T q Hg Hq) as (inc & di & Hinc & Hdi & -> & Har & Hat & Hen).
  rewrite Hr. cbn [andb].
  assert (Etr : forall i, sl_tr P T i = T i) by (intros i; unfold sl_tr; now rewrite Hgo).
  rewrite (map_ext (sl_tr P T) T Etr), Hb, Hk1 in Hen.
  assert (Hij : 0 < inc j).
  { exact (film_enter_inc _ _ _ _ _ _ _ _ Hnt (conj Hnm Hle) Hnf Hj Hwj Hdj Hen Hsj). }
  assert (HB : forall i, (i < n)%nat -> 0 <= sl_ab P T inc i /\ 0 <= sl_rp P T inc i /\ 0 <= sl_tp P T inc i).
  { intros i Hi. destruct (HT i Hi) as (Hw & _ & Hf & _).
    destruct (slot_bounds P false n T inc Hg Hinc Har Hat 1 i Hi ltac:(lra) (conj Hw Hf))
      as (B1 & B2 & B3 & B4 & B5 & B6 & _).
    unfold sl_ab. repeat split; lra. }
  assert (HK : 0 < sl_known P false n T inc).
  { unfold sl_known.
    assert (G : forall f : nat -> R, (forall i, (i < n)%nat -> 0 <= f i) -> 0 < f j -> 0 < total (map f (seq 0 n))).
    { intros f Hf Hfj'. assert (Hin : In j (seq 0 n)) by (apply in_seq; lia).
      apply in_split in Hin as (l1 & l2 & El). rewrite El, map_app, total_app. cbn [map total].
      assert (0 <= total (map f l1)).
      { apply total_map_nonneg. intros a Ha. apply Hf. assert (In a (seq 0 n)) by (rewrite El; apply in_or_app; auto).
        apply in_seq in H. lia. }
      assert (0 <= total (map f l2)).
      { apply total_map_nonneg. intros a Ha. apply Hf. assert (In a (seq 0 n)) by (rewrite El; apply in_or_app; right; now right).
        apply in_seq in H0. lia. }
      lra. }
    apply G; [intros i Hi; destruct (HB i Hi) as (? & ? & ?); lra|].
    destruct (HB j Hj) as (B1 & B2 & B3).
    assert (Eev : sl_ev P T j = (r, t, s, ti)) by (unfold sl_ev, sl_nt; rewrite Hb; exact Hev).
    destruct (trajectory_outcome _ _ _ _ _ _ _ _ _ Hwj E) as (r' & t' & s' & He & Ho).
    rewrite Hev in He. injection He as <- <- <- _.
    assert (Hpf : forall g, (forall m, g = Some m -> p_nmedium P <= m) ->
       forall k, (nth k ps false = true \/ nth k ng false = true) ->
       0 < pf1 (sl_nt P) g (p_nmedium P) (exit_angle P (T j) (S k))).
    { intros gl Hgl k Hk. unfold exit_angle. rewrite Hb.
      pose proof (film_exits_nth (choose_n_tir P) (p_nmedium P) (p_thickness P) (p_zlow P) (T j) Hwj) as HF.
      cbn [find_valid_exits] in E. rewrite E in HF. destruct HF as (L1 & L2 & L3 & HF).
      assert (Hlt : (k < length (t_dir (T j)))%nat) by (destruct Hk as [Hk|Hk]; apply nth_true_lt in Hk; lia).
      specialize (HF k Hlt). unfold film_flags in HF. cbv zeta in HF. injection HF as F1 F2 F3.
      assert (Hnt2 : no_tir_film (choose_n_tir P) (p_nmedium P) (vz (nth k (t_dir (T j)) vzero)) = true).
      { destruct Hk as [Hk|Hk].
        - rewrite Hk in F1. symmetry in F1. apply andb_true_iff in F1 as [F1 _]. apply andb_true_iff in F1. tauto.
        - rewrite Hk in F2. symmetry in F2. apply andb_true_iff in F2 as [F2 _]. apply andb_true_iff in F2. tauto. }
      apply no_tir_steep in Hnt2; [|lra|lra|apply dirs_ok_nth; exact Hdj].
      destruct (steep_angle _ _ _ Hnt (conj Hnm Hle) (dirs_ok_nth _ k Hdj) Hnt2) as [H1 H2].
      unfold film_exit_angle. cbn [select_col]. rewrite (nth_map_in vz _ _ vzero) by exact Hlt.
      apply pf1_pos; try assumption.
      intros m Em. specialize (Hgl m Em). unfold sl_nt. lra. }
    unfold sl_rp, sl_tp, sl_rw, sl_tw, sl_ar, sl_at, sl_ri, sl_ti in *. rewrite Etr, Hgo, Eev in *.
    cbn [i_refl i_trans] in *.
    destruct Ho as [(_ & _ & Er & Et & _)|[(k & _ & Hk & _ & Er & Et & _)|(k & _ & Hk & _ & Er & Et & _)]].
    - lia.
    - specialize (Hpf (p_nfront P) Hnf k (or_intror Hk)). rewrite Er, Et in *.
      replace (S k + 0 - 1)%nat with k in Hwt by lia. cbn [select_col] in *.
      assert (0 < inc j * nth k (t_w (T j)) 0) by (apply Rmult_lt_0_compat; assumption).
      assert (0 < inc j * nth k (t_w (T j)) 0 * pf1 (sl_nt P) (p_nfront P) (p_nmedium P) (exit_angle P (T j) (S k)))
        by (apply Rmult_lt_0_compat; assumption). lra.
    - specialize (Hpf (p_nback P) Hnb k (or_introl Hk)). rewrite Er, Et in *.
      replace (0 + S k - 1)%nat with k in Hwt by lia. cbn [select_col] in *.
      assert (0 < inc j * nth k (t_w (T j)) 0) by (apply Rmult_lt_0_compat; assumption).
      assert (0 < inc j * nth k (t_w (T j)) 0 * pf1 (sl_nt P) (p_nback P) (p_nmedium P) (exit_angle P (T j) (S k)))
        by (apply Rmult_lt_0_compat; assumption). lra. }
  unfold sl_pass, distribute_ambig_traj_weights. rewrite Hb, Hgo.
  cbn [q_exit q_refl_det q_inc_refl_det q_trans_det q_stuck sl_exit x_refl_fresnel x_trans_fresnel x_refl_frac x_trans_frac].
  unfold ndiv. replace (Reqb (sl_known P false n T inc) 0) with false.
  2: { symmetry. unfold Reqb. destruct (Req_EM_T _ 0); [lra|reflexivity]. }
  eauto.
Qed.

(** A film trajectory whose positions all lie inside is stuck. *)
Lemma film_inside_stuck nt nm th zl t :
  zl < th -> wf_len t -> (forall p, In p (t_pos t) -> zl <= vz p < th) ->
  exists ti, event_indices nt nm th zl film t = (0%nat, 0%nat, length (t_dir t), ti).
Proof.
  intros Hth Hw Hin.
  destruct (find_valid_exits nt nm th zl film t) as [[ps ng] ti] eqn:E.
  destruct (trajectory_outcome _ _ _ _ _ _ _ _ _ Hw E) as (r & t' & s & He & Ho).
  pose proof (film_exits_nth nt nm th zl t Hw) as HF. cbn [find_valid_exits] in E. rewrite E in HF.
  destruct HF as (L1 & L2 & L3 & HF).
  assert (Hz : forall k, (k < length (t_pos t))%nat -> z_floor th zl (vz (nth k (t_pos t) vzero)) = 0%Z).
  { intros k Hk. apply z_floor_slab; [exact Hth|]. unfold in_slab.
    destruct (Hin _ (nth_In _ vzero Hk)). lra. }
  assert (Hno : forall k, nth k ps false = false /\ nth k ng false = false).
  { intros k. destruct (Nat.lt_ge_cases k (length (t_dir t))) as [Hk|Hk].
    - specialize (HF k Hk). unfold film_flags in HF. rewrite !Hz in HF by (destruct Hw as [-> _]; lia).
      cbn in HF. injection HF as -> -> _. auto.
    - rewrite !nth_overflow by lia. auto. }
  destruct Ho as [(_ & _ & -> & -> & ->)|[(k & _ & Hk & _)|(k & _ & Hk & _)]].
  - eauto.
  - destruct (Hno k) as [_ Hn]. congruence.
  - destruct (Hno k) as [Hn _]. congruence.
Qed.

(* ------------------------------------------------------------------ *)
(** * The statements in terms of [valid_params] *)

Lemma valid_good P n : valid_params P n -> good_params P n.
Proof.
  intros (Hm & Hs & Hf & Hp & Hx & Hfr & Hba & Hk1 & Hk2).
  unfold good_params. do 2 (split; [assumption|]). split; [|repeat split; assumption].
  unfold choose_n_tir. assert (0 < Rabs (p_nsample P)) by (now apply Rabs_pos_lt).
  destruct (p_nparticle P) as [a|]; [|assumption]. destruct (p_nmatrix P) as [b|]; [|assumption].
  specialize (Hp a eq_refl). specialize (Hx b eq_refl). destruct (Rltb a b);
  destruct (Req_dec (p_fine P) 0) as [->|]; nra.
Qed.

Lemma plain_tir P : plain P -> choose_n_tir P = Rabs (p_nsample P).
Proof. intros (_ & _ & _ & Hp & _). unfold choose_n_tir. now rewrite Hp. Qed.

Lemma total_const_div n x : (0 < n)%nat -> total (map (fun _ : nat => x) (seq 0 n)) / INR n = x.
Proof.
  intros Hn. rewrite total_map_const, seq_length. field. apply not_0_INR. lia.
Qed.

Lemma film_conserves fuel angs steps P d n T o :
  (0 < n)%nat -> valid_params P n -> plain P -> full_detection P ->
  p_boundary P = film -> p_run P = false -> p_muabs P = 0 ->
  (forall i, (i < n)%nat -> wf_len (T i) /\ dirs_ok (T i) /\ flat 1 (T i)) ->
  calc_refl_trans fuel angs steps P false d (map T (seq 0 n)) = Ok (Some o) ->
  o_refl o + o_trans o = 1.
Proof.
  intros Hn Hv Hp Hd Hb Hr Hmu HT H.
  pose proof (plain_tir P Hp) as Et. destruct Hp as (Hgo & Hk1 & Hk2 & _).
  destruct (crt_exact fuel angs (fun _ _ _ => 0) P false d n T (fun _ => 1) o Hn (valid_good _ _ Hv)) as (inc & Hinc & E).
  - repeat split; try assumption. rewrite Et. lra.
  - right. auto.
  - intros; lra.
  - intros i Hi. destruct (HT i Hi) as (Hw & Hdi & Hf). repeat split; try lra; try apply Hw; auto.
  - destruct fuel as [|fuel]; [discriminate|]. cbn [calc_refl_trans] in *. rewrite Hr in *. exact H.
  - rewrite E. transitivity (total (map (fun _ => 1) (seq 0 n)) / INR n);
    [f_equal; apply total_map_ext; intros; lra|apply total_const_div, Hn].
Qed.

Lemma film_conserves_rough fuel angs steps P d n T o :
  (0 < n)%nat -> valid_params P n -> p_gonio P = None -> p_kz0rot P = None ->
  Rabs (p_nsample P) <= choose_n_tir P -> full_detection P ->
  p_boundary P = film -> p_run P = false -> p_muabs P = 0 ->
  (forall i, (i < n)%nat -> wf_len (T i) /\ dirs_ok (T i) /\ flat 1 (T i)) ->
  calc_refl_trans fuel angs steps P false d (map T (seq 0 n)) = Ok (Some o) ->
  o_refl o + o_trans o = 1.
Proof.
  intros Hn Hv Hgo Hk1 Hle Hd Hb Hr Hmu HT H.
  destruct (crt_exact fuel angs (fun _ _ _ => 0) P false d n T (fun _ => 1) o Hn (valid_good _ _ Hv)) as (inc & Hinc & E).
  - repeat split; assumption.
  - right. auto.
  - intros; lra.
  - intros i Hi. destruct (HT i Hi) as (Hw & Hdi & Hf). repeat split; try lra; try apply Hw; auto.
  - destruct fuel as [|fuel]; [discriminate|]. cbn [calc_refl_trans] in *. rewrite Hr in *. exact H.
  - rewrite E. transitivity (total (map (fun _ => 1) (seq 0 n)) / INR n);
    [f_equal; apply total_map_ext; intros; lra|apply total_const_div, Hn].
Qed.

Lemma sphere_conserves fuel angs steps P d n T o :
  (0 < n)%nat -> valid_params P n -> plain P -> full_detection P ->
  p_boundary P = sphere -> p_muabs P = 0 -> (forall e i k, 0 <= steps e i k) ->
  (forall i, (i < n)%nat -> wf_len (T i) /\ flat 1 (T i)) ->
  calc_refl_trans fuel angs steps P false d (map T (seq 0 n)) = Ok (Some o) ->
  o_refl o + o_trans o = 1.
Proof.
  intros Hn Hv Hp Hd Hb Hmu Hst HT H.
  pose proof (plain_tir P Hp) as Et. destruct Hp as (Hgo & Hk1 & Hk2 & _).
  destruct (crt_exact fuel angs steps P false d n T (fun _ => 1) o Hn (valid_good _ _ Hv)) as (inc & Hinc & E).
  - repeat split; try assumption. rewrite Et. lra.
  - now left.
  - assumption.
  - intros i Hi. destruct (HT i Hi) as (Hw & Hf). split; [lra|]. split; [exact Hw|]. split; [exact Hf|].
    rewrite Hb. discriminate.
  - exact H.
  - rewrite E. transitivity (total (map (fun _ => 1) (seq 0 n)) / INR n);
    [f_equal; apply total_map_ext; intros; lra|apply total_const_div, Hn].
Qed.

Lemma total_le_one n (inc : nat -> R) (r : nat -> R) : (0 < n)%nat ->
  (forall i, (i < n)%nat -> r i <= 1 / INR n) -> total (map r (seq 0 n)) <= 1.
Proof.
  intros Hn H. eapply Rle_trans; [apply (sum_slots r (seq 0 n) (1 / INR n))|].
  - intros i Hi. apply in_seq in Hi. apply H. lia.
  - rewrite seq_length. right. field. apply not_0_INR. lia.
Qed.

(** Reflectance and transmittance are fractions, and so are the shares of the
    trajectories. *)
Lemma fractions_hold fuel angs steps P d n T o :
  (0 < n)%nat -> valid_params P n -> (p_boundary P = film \/ p_gonio P = None) ->
  0 <= p_muabs P -> (forall e i k, 0 <= steps e i k) ->
  (forall i, (i < n)%nat -> col_ok 1 (T i)) ->
  calc_refl_trans fuel angs steps P false d (map T (seq 0 n)) = Ok (Some o) ->
  0 <= o_refl o /\ 0 <= o_trans o /\ o_refl o + o_trans o <= 1
  /\ o_refl o = total (o_refl_per o) /\ o_trans o = total (o_trans_per o)
  /\ length (o_refl_per o) = n /\ length (o_trans_per o) = n
  /\ (forall i, (i < n)%nat -> 0 <= nth i (o_refl_per o) 0 /\ 0 <= nth i (o_trans_per o) 0
        /\ nth i (o_refl_per o) 0 + nth i (o_trans_per o) 0 <= 1 / INR n).
Proof.
  intros Hn Hv Hb Hmu Hst HT H.
  destruct (crt_bounds fuel angs steps P false d n T (fun _ => 1) o Hn (valid_good _ _ Hv) Hb Hmu Hst)
    as (inc & Hinc & r & t & Er & Et & ER & ET & HS).
  - intros i Hi. split; [lra|auto].
  - exact H.
  - assert (HS' : forall i, (i < n)%nat -> 0 <= r i /\ 0 <= t i /\ r i + t i <= 1 / INR n).
    { intros i Hi. destruct (HS i Hi) as (H1 & H2 & H3). repeat split; try assumption.
      eapply Rle_trans; [exact H3|]. right. f_equal. lra. }
    rewrite Er, Et, ER, ET.
    split. { apply total_map_nonneg. intros i Hi. apply in_seq in Hi. apply HS'. lia. }
    split. { apply total_map_nonneg. intros i Hi. apply in_seq in Hi. apply HS'. lia. }
    split. { rewrite <- total_map_plus. apply (total_le_one n inc _ Hn). intros i Hi. apply HS'. exact Hi. }
    do 2 (split; [reflexivity|]).
    do 2 (split; [now rewrite map_length, seq_length|]).
    intros i Hi.
    assert (G : forall f : nat -> R, nth i (map f (seq 0 n)) 0 = f i).
    { intros f. rewrite (nth_indep _ 0 (f 0%nat)) by (now rewrite map_length, seq_length).
      rewrite map_nth, seq_nth by exact Hi. reflexivity. }
    rewrite !G. auto.
Qed.

(** Haze of the result of calc_refl_trans (film). *)
Lemma haze_of_result fuel angs steps P d n T o c :
  (0 < n)%nat -> valid_params P n -> p_boundary P = film -> 0 <= p_muabs P ->
  (forall e i k, 0 <= steps e i k) -> (forall i, (i < n)%nat -> col_ok 1 (T i)) ->
  calc_refl_trans fuel angs steps P false d (map T (seq 0 n)) = Ok (Some o) ->
  0 < o_trans o ->
  exists h, calc_haze (map T (seq 0 n)) (o_trans_per o) (o_trans o) (o_trans_i o) c = Some h
    /\ fraction h
    /\ (PI / 2 < c -> h = 0) /\ (c <= 0 -> h = 1)
    /\ forall c' h', c <= c' ->
         calc_haze (map T (seq 0 n)) (o_trans_per o) (o_trans o) (o_trans_i o) c' = Some h' -> h' <= h.
Proof.
  intros Hn Hv Hb Hmu Hst HT H Ht.
  destruct (fractions_hold _ _ _ _ _ _ _ _ Hn Hv (or_introl Hb) Hmu Hst HT H)
    as (_ & _ & _ & _ & ET & _ & L2 & HP).
  rewrite ET in Ht |- *.
  assert (Li : length (o_trans_i o) = n).
  { destruct fuel as [|fuel]; [discriminate|]. cbn [calc_refl_trans] in H.
    destruct (first_pass P false (map T (seq 0 n))) as [[q|]|e] eqn:Eq; [|discriminate|discriminate].
    cbn [bind] in H. destruct (first_pass_slots P false n T q (valid_good _ _ Hv) Eq) as (inc & di & _ & _ & -> & _).
    destruct (p_run P && Nat.ltb d (p_maxdepth P) && Rltb (p_maxstuck P) _).
    - destruct (rerun_all _ _ _ _ _ _) as [trs'|e]; [|discriminate]. cbn [bind] in H.
      destruct (calc_refl_trans fuel _ _ _ _ _ _) as [[o'|]|e]; [|discriminate|discriminate].
      cbn [bind] in H. injection H as <-. cbn. now rewrite map_length, seq_length.
    - destruct (distribute_ambig_traj_weights _ _ _ _ _ _ _ _ _ _ _ _) as [[[[r t] rp] tp]|]; [|discriminate].
      injection H as <-. cbn. now rewrite map_length, seq_length. }
  apply haze_spec.
  - rewrite map_length, seq_length. lia.
  - lia.
  - apply Forall_forall. intros x Hx. apply (In_nth _ _ 0) in Hx as (i & Hi & <-).
    apply HP. lia.
  - exact Ht.
Qed.

Lemma in_sphere_outside r p : in_sphere r p -> outside r p = false.
Proof. intros H. apply Rltb_false. exact H. Qed.

Lemma sphere_numbers fuel angs steps P d n T :
  (21 <= fuel)%nat -> valid_params P n -> plain P -> p_boundary P = sphere -> 0 < p_thickness P ->
  d = 0%nat ->
  (forall i, (i < n)%nat -> wf_len (T i) /\ in_sphere (p_thickness P / 2) (nth 0 (t_pos (T i)) vzero)
     /\ fst (sphere_entry_angle (p_thickness P) (T i) 1) <= PI / 2) ->
  exists o, calc_refl_trans fuel angs steps P false d (map T (seq 0 n)) = Ok (Some o).
Proof.
  intros Hf Hv (Hgo & Hk1 & Hk2 & _) Hb Hth -> HT.
  apply sphere_succeeds; try assumption.
  - pose proof (gens_left_0 (p_maxdepth P)). lia.
  - now apply valid_good.
  - intros i Hi. destruct (HT i Hi) as (Hw & Hin & Ha). split; [exact Hw|]. split.
    + apply in_sphere_outside, Hin.
    + now right.
Qed.

(** With a goniometer on a sphere the redistribution of the undetected light
    creates energy: weight 1/2 detected, weight 1/2 re-reflected inside, gives
    a reflectance and transmittance adding up to 5/4. *)
Lemma sphere_gonio_creates :
  exists r t, distribute_ambig_traj_weights [1 / 2] [0] (Some 1) (Some 0) 1 1 [1 / 2] [0] [0] [0] sphere true
    = Some (r, t, [r], [t]) /\ r + t = 5 / 4.
Proof.
  unfold distribute_ambig_traj_weights, Rsum. cbn [map map2 map3 length INR fold_right].
  exists ((1 / 2 + 1 / 2 * 1 * 1 + 0) / 1), ((0 + 1 / 2 * (0 + 1 / 2 + 0) * 1) / 1). split; [|field].
  rewrite !Rplus_0_r. reflexivity.
Qed.
