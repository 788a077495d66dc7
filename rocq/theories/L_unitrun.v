(** Changing the unit of length in the whole calculation (C148). *)
From Coq Require Import Lra Lia Psatz.
From Verif Require Import Num Spec Spec_scatter Spec_optics Spec_reflection Spec_absorbing Spec_scat Spec_scat_cplx Spec_meta
  Spec_detector Spec_events Spec_unitrun
  L_num L_reflection L_dcs L_poly L_units L_scat L_scat_cplx L_meta L_meta2
  M_init M_montecarlo M_detector M_structure M_refractive_index M_reflection M_absorbing M_scat M_scat_cplx M_simulation M_workflow Properties_meta.
From Coquelicot Require Import Complex.
Open Scope R_scope.

(** * The run *)
Definition start_in (l : R) (s : start) : start := let '(p, d, w) := s in (vscale l p, d, w).

Lemma vadd_scale l a b : vadd (vscale l a) (vscale l b) = vscale l (vadd a b).
Proof. destruct a as [[a1 a2] a3], b as [[b1 b2] b3]. unfold vadd, vscale, vx, vy, vz. cbn. (apply (f_equal2 pair); [apply (f_equal2 pair)|]; ring). Qed.
Lemma vscale_zero l : vscale l vzero = vzero.
Proof. unfold vscale, vzero, vx, vy, vz. cbn. (apply (f_equal2 pair); [apply (f_equal2 pair)|]; ring). Qed.
Lemma vcumsum_scale l v : forall a, vcumsum_from (vscale l a) (map (vscale l) v) = map (vscale l) (vcumsum_from a v).
Proof.
  induction v as [|x v IH]; intros a; cbn [map vcumsum_from]; [reflexivity|]. rewrite vadd_scale, IH. reflexivity.
Qed.
Lemma steps_scale l : forall step dirs,
  map2 (fun s k => vscale s k) (map (fun s => l * s) step) dirs = map (vscale l) (map2 (fun s k => vscale s k) step dirs).
Proof.
  induction step as [|s step IH]; intros [|k dirs]; cbn [map map2]; try reflexivity. rewrite IH. f_equal.
  destruct k as [[a b] c]. unfold vscale, vx, vy, vz. cbn. (apply (f_equal2 pair); [apply (f_equal2 pair)|]; ring).
Qed.
Lemma move_scale l p q q' dirs step :
  move (vscale l p :: q) dirs (map (fun s => l * s) step) = map (vscale l) (move (p :: q') dirs step).
Proof.
  unfold move. rewrite steps_scale. rewrite <- (vscale_zero l) at 1. rewrite <- map_cons. apply (vcumsum_scale l).
Qed.
Lemma absorb_scale l mu w : l <> 0 -> forall step, absorb (mu / l) w (map (fun s => l * s) step) = absorb mu w step.
Proof.
  intros Hl step. unfold absorb. unfold cumsum.
  assert (E : forall st a, cumsum_from (l * a) (map (fun s => l * s) st) = map (fun s => l * s) (cumsum_from a st)).
  { induction st as [|s st IH]; intros a; cbn [map cumsum_from]; [reflexivity|].
    replace (l * a + l * s) with (l * (a + s)) by ring. now rewrite IH. }
  replace 0 with (l * 0) at 1 by ring. rewrite E. generalize (cumsum_from 0 step). intros c. revert w.
  induction c as [|x c IH]; intros [|y w]; cbn [map map2]; try reflexivity. rewrite IH. do 3 f_equal. field. exact Hl.
Qed.

Lemma run_traj_scale l nev mu ang step s : l <> 0 ->
  run_traj nev (mu / l) ang (map (fun s => l * s) step) (start_in l s)
  = match run_traj nev mu ang step s with Ok t => Ok (option_map (rescaled l) t) | Err e => Err e end.
Proof.
  intros Hl. destruct s as [[p d] w]. cbn [start_in run_traj]. destruct d as [k|]; [|reflexivity].
  destruct (scatter _ _) as [dirs|e]; cbn [bind]; [|reflexivity]. cbn [option_map]. unfold rescaled. cbn [t_pos t_dir t_w].
  rewrite absorb_scale by exact Hl. rewrite (move_scale l p (repeat vzero nev) (repeat vzero nev)). reflexivity.
Qed.

Lemma run_trajs_scale l nev mu ang : l <> 0 -> forall starts steps i,
  run_trajs nev (mu / l) ang (map (map (fun s => l * s)) steps) i (map (start_in l) starts)
  = match run_trajs nev mu ang steps i starts with Ok t => Ok (option_map (map (rescaled l)) t) | Err e => Err e end.
Proof.
  intros Hl. induction starts as [|s starts IH]; intros steps i; cbn [map run_trajs]; [reflexivity|].
  replace (map (fun row => nth i row 0) (map (map (fun s0 => l * s0)) steps))
    with (map (fun s0 => l * s0) (map (fun row => nth i row 0) steps)).
  2:{ rewrite !map_map. apply map_ext. intros row. rewrite <- (map_nth (fun s0 => l * s0)). now rewrite Rmult_0_r. }
  rewrite run_traj_scale by exact Hl. destruct (run_traj _ _ _ _ _) as [t|e]; cbn [bind]; [|reflexivity].
  rewrite IH. destruct (run_trajs _ _ _ _ _ _) as [ts|e]; cbn [bind]; [|reflexivity].
  destruct t, ts; reflexivity.
Qed.

Lemma trajectories_scale l nev ntraj mu mua D starts : 0 < l -> mu <> 0 ->
  trajectories nev ntraj (mu / l) (mua / l) D (map (start_in l) starts)
  = match trajectories nev ntraj mu mua D starts with Ok t => Ok (option_map (map (rescaled l)) t) | Err e => Err e end.
Proof.
  intros Hl Hm. unfold trajectories, sample_step.
  destruct (Rltb 1 0 || Rltb 0 0); [reflexivity|]. cbn [bind].
  replace (map (map (step_of (mu / l))) (uniform_rows nev ntraj (d_u D)))
    with (map (map (fun s => l * s)) (map (map (step_of mu)) (uniform_rows nev ntraj (d_u D)))).
  2:{ rewrite map_map. apply map_ext. intros row. rewrite map_map. apply map_ext. intros u. unfold step_of. field. lra. }
  apply run_trajs_scale. lra.
Qed.

Lemma film_run_units l nev ntraj spot tmin tmax pmin pmax mu P D : 0 < l -> mu <> 0 ->
  p_boundary P = film -> p_zlow P < p_thickness P -> p_run P = false -> p_gonio P = None ->
  film_run nev ntraj (l * spot) tmin tmax pmin pmax (mu / l) (rescaled_params l P) D
  = film_run nev ntraj spot tmin tmax pmin pmax mu P D.
Proof.
  intros Hl Hm Hb Hz Hr Hg. unfold film_run, initialize_film. cbn [bind].
  match goal with |- bind (trajectories _ _ _ _ _ ?a) _ = bind (trajectories _ _ _ _ _ ?b) _ =>
    replace a with (map (start_in l) b) end.
  2:{ rewrite map_map. apply map_ext. intros i. cbn [start_in]. f_equal. f_equal. unfold vscale, vx, vy, vz. cbn [fst snd].
      (apply (f_equal2 pair); [apply (f_equal2 pair)|]; ring). }
  change (p_muabs (rescaled_params l P)) with (p_muabs P / l). rewrite trajectories_scale by assumption.
  destruct (trajectories _ _ _ _ _ _) as [[trs|]|e]; cbn [bind option_map]; [|reflexivity|reflexivity].
  apply Properties_meta.C133_units; auto.
Qed.
