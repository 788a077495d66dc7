(** Proofs about whole runs (C103). *)
From Coq Require Import Lra Lia Psatz.
From Verif Require Import Num Spec M_init M_montecarlo M_detector M_simulation Spec_detector
  L_init L_montecarlo L_montecarlo2 L_outcomes.
Open Scope R_scope.

Lemma vlen_unit_vz k k0 : vlen k = vlen k0 -> unit k0 -> -1 <= vz k <= 1.
Proof.
  intros E U. unfold vlen in E. unfold unit in U. rewrite U, sqrt_1 in E.
  assert (H : dot k k = 1).
  { assert (0 <= dot k k) by (unfold dot; nra). rewrite <- (sqrt_sqrt (dot k k)) by assumption. rewrite E. ring. }
  unfold dot in H. nra.
Qed.

Lemma run_traj_ok nev mu ang step p k : (0 < nev)%nat -> length step = nev ->
  exists t, run_traj nev mu ang step (p, Some k, repeat 1 nev) = Ok (Some t)
    /\ wf_len t /\ length (t_dir t) = nev
    /\ nth 0 (t_pos t) vzero = p /\ nth 0 (t_dir t) vzero = k
    /\ Forall (fun v => vlen v = vlen k) (t_dir t)
    /\ t_w t = absorb mu (repeat 1 nev) step.
Proof.
  intros Hn Hl. unfold run_traj.
  destruct (proj1 (scatter_succeeds k (repeat vzero (nev - 1)) (map ang (seq 0 (nev - 1))))) as [ks E].
  { rewrite repeat_length, map_length, seq_length. lia. }
  rewrite E. cbn [bind]. eexists. split; [reflexivity|].
  destruct (scatter_keeps_length _ _ _ _ E) as (Hh & Hlen & Hf). rewrite repeat_length in Hlen.
  assert (Hks : length ks = nev) by lia.
  assert (Hmv : length (move (p :: repeat vzero nev) ks step) = S nev) by (rewrite move_length; lia).
  assert (Hab : length (absorb mu (repeat 1 nev) step) = nev) by (rewrite absorb_length; rewrite ?repeat_length; lia).
  unfold wf_len. cbn [t_pos t_dir t_w]. repeat split; try lia; auto.
  - rewrite move_nth by lia. destruct p as [[x y] z]. unfold vadd, vzero. cbn. now rewrite !Rplus_0_r.
  - destruct ks; [cbn in Hks; lia|exact Hh].
Qed.

Lemma run_trajs_ok nev mu ang (steps : list (list R)) (Q : nat -> vec -> vec -> Prop) : (0 < nev)%nat -> length steps = nev ->
  forall l i, (forall j s, nth_error l j = Some s -> exists p k, s = (p, Some k, repeat 1 nev) /\ Q (i + j)%nat p k) ->
  exists trs, run_trajs nev mu ang steps i l = Ok (Some trs) /\ length trs = length l
    /\ forall j, (j < length l)%nat -> exists p k, Q (i + j)%nat p k /\
       let t := nth j trs (mk_traj [] [] []) in
       wf_len t /\ length (t_dir t) = nev
       /\ nth 0 (t_pos t) vzero = p /\ nth 0 (t_dir t) vzero = k
       /\ Forall (fun v => vlen v = vlen k) (t_dir t)
       /\ t_w t = absorb mu (repeat 1 nev) (map (fun row => nth (i + j) row 0) steps).
Proof.
  intros Hn Hs. induction l as [|s l IH]; intros i H.
  - exists []. repeat split. intros j Hj. cbn in Hj. lia.
  - destruct (H 0%nat s eq_refl) as (p & k & -> & HQ).
    destruct (run_traj_ok nev mu (ang i) (map (fun row => nth i row 0) steps) p k Hn) as (t & Et & Ht).
    { now rewrite map_length. }
    destruct (IH (S i)) as (trs & E & El & Htr).
    { intros j s Hj. replace (S i + j)%nat with (i + S j)%nat by lia. now apply H. }
    exists (t :: trs). split; [|split].
    + cbn [run_trajs]. rewrite Et. cbn [bind]. rewrite E. reflexivity.
    + cbn. now rewrite El.
    + intros [|j] Hj.
      * exists p, k. split; [exact HQ|]. rewrite Nat.add_0_r. exact Ht.
      * cbn [length] in Hj. destruct (Htr j ltac:(lia)) as (p' & k' & HQ' & Ht').
        exists p', k'. replace (i + S j)%nat with (S i + j)%nat by lia. split; [exact HQ'|exact Ht'].
Qed.

Lemma list_as_map {A} (l : list A) d : l = map (fun i => nth i l d) (seq 0 (length l)).
Proof.
  apply (nth_ext _ _ d d); [now rewrite map_length, seq_length|].
  intros i Hi. rewrite (nth_indep (map _ _) d (nth 0 l d)) by (rewrite map_length, seq_length; exact Hi).
  rewrite (map_nth (fun i => nth i l d)), seq_nth by exact Hi. reflexivity.
Qed.

Lemma column_nonneg nev ntraj mu u i : 0 < mu -> (forall n j, 0 <= u n j < 1) ->
  Forall (fun x => 0 <= x) (map (fun row => nth i row 0) (map (map (step_of mu)) (uniform_rows nev ntraj u))).
Proof.
  intros Hm Hu. unfold uniform_rows. rewrite !map_map. apply Forall_map, Forall_forall.
  intros n _. rewrite map_map.
  destruct (Nat.lt_ge_cases i ntraj) as [Hi|Hi].
  - rewrite (nth_indep _ 0 (step_of mu (u n 0%nat))) by (rewrite map_length, seq_length; exact Hi).
    rewrite (map_nth (fun j => step_of mu (u n j))). now apply step_nonneg.
  - rewrite nth_overflow by (rewrite map_length, seq_length; exact Hi). lra.
Qed.

(** The trajectories of a run: all the hypotheses of the detector theorems. *)
Lemma trajectories_ok nev ntraj mu mua D starts (Q : nat -> vec -> vec -> Prop) :
  (0 < nev)%nat -> 0 < mu -> (forall n i, 0 <= d_u D n i < 1) -> 0 <= mua ->
  length starts = ntraj ->
  (forall j s, nth_error starts j = Some s -> exists p k, s = (p, Some k, repeat 1 nev) /\ Q j p k) ->
  exists T, trajectories nev ntraj mu mua D starts = Ok (Some (map T (seq 0 ntraj)))
    /\ forall i, (i < ntraj)%nat -> exists p k, Q i p k
        /\ wf_len (T i) /\ nth 0 (t_pos (T i)) vzero = p /\ nth 0 (t_dir (T i)) vzero = k
        /\ (unit k -> dirs_ok (T i)) /\ col_ok 1 (T i) /\ (mua = 0 -> flat 1 (T i)).
Proof.
  intros Hn Hm Hu Ha Hl H. unfold trajectories. rewrite sample_step_single by lra. cbn [bind].
  set (steps := map (map (step_of mu)) (uniform_rows nev ntraj (d_u D))).
  assert (Hsl : length steps = nev) by (unfold steps, uniform_rows; now rewrite !map_length, seq_length).
  destruct (run_trajs_ok nev mua (d_ang D) steps Q Hn Hsl starts 0 H) as (trs & E & El & Ht).
  exists (fun i => nth i trs (mk_traj [] [] [])). split.
  - rewrite E. rewrite <- Hl, <- El. do 2 f_equal. apply list_as_map.
  - intros i Hi. destruct (Ht i ltac:(lia)) as (p & k & HQ & Hw & Hd & Hp & Hk & Hf & Ew).
    cbn [Nat.add] in *. exists p, k. split; [exact HQ|]. split; [exact Hw|]. split; [exact Hp|]. split; [exact Hk|].
    set (col := map (fun row => nth i row 0) steps) in *.
    assert (Hcl : length col = nev) by (unfold col; now rewrite map_length).
    assert (Hc0 : Forall (fun x => 0 <= x) col) by (apply column_nonneg; assumption).
    split; [|split].
    + intros U. unfold dirs_ok. eapply Forall_impl; [|exact Hf]. intros v Hv. now apply (vlen_unit_vz v k).
    + split; [exact Hw|]. rewrite Ew. apply Forall_forall. intros w Hin.
      apply (In_nth _ _ 0) in Hin as (j & Hj & <-).
      rewrite absorb_length in Hj by (rewrite repeat_length; lia).
      pose proof (absorb_bounds mua 1 col j Ha ltac:(lra) Hc0 Hj) as B. rewrite Hcl in B. exact B.
    + intros ->. unfold flat. rewrite Ew, absorb_zero by (rewrite repeat_length; lia). now rewrite Hd.
Qed.

(** * Films *)
(** Without re-runs the draws of the re-runs are not used. *)
Lemma no_rerun_draws fuel angs steps steps' P ft d trs : p_run P = false ->
  calc_refl_trans (S fuel) angs steps P ft d trs = calc_refl_trans (S fuel) angs steps' P ft d trs.
Proof. intros Hr. cbn [calc_refl_trans]. rewrite Hr. reflexivity. Qed.

Lemma film_run_ok nev ntraj spot tmin tmax pmin pmax mu P D :
  (0 < nev)%nat -> (0 < ntraj)%nat -> 0 < spot -> 0 < mu -> 0 <= p_muabs P ->
  in01 (d_l0 D) -> in01 (d_l1 D) -> (forall n i, 0 <= d_u D n i < 1) ->
  valid_params P ntraj -> 0 < p_nmedium P <= p_nsample P ->
  p_kz0rot P = None -> p_kz0refl P = None -> p_boundary P = film -> p_run P = false ->
  exists oo, film_run nev ntraj spot tmin tmax pmin pmax mu P D = Ok oo
    /\ forall o, oo = Some o ->
         0 <= o_refl o /\ 0 <= o_trans o /\ o_refl o + o_trans o <= 1
         /\ (plain P -> full_detection P -> p_muabs P = 0 -> o_refl o + o_trans o = 1).
Proof.
  intros Hn Ht Hsp Hm Ha H0 H1 Hu Hv Hns Hk1 Hk2 Hb Hr. unfold film_run.
  destruct (initialize_film_ok nev ntraj spot None None tmin tmax pmin pmax (p_nmedium P) (p_nsample P)
     (d_l0 D) (d_l1 D) (d_l2 D) (d_l3 D) Hsp ltac:(lra) ltac:(lra) H0 H1 ltac:(discriminate) ltac:(discriminate))
    as (l & -> & Hl & Hst). cbn [bind].
  destruct (trajectories_ok nev ntraj mu (p_muabs P) D l (fun _ _ k => unit k) Hn Hm Hu Ha Hl) as (T & -> & HT).
  { intros j s Hj. specialize (Hst j s Hj). destruct s as [[p d] w]. cbn in Hst.
    destruct Hst as (_ & _ & _ & -> & Hd & Hk). destruct d as [k|]; [|exfalso; apply Hd; [lra|reflexivity]].
    exists p, k. split; [reflexivity|]. now apply Hk. }
  cbn [bind].
  destruct (film_never_raises 21 (d_rang D) (d_rstep D) P false 0 (map T (seq 0 ntraj)) Hb) as [oo E].
  { rewrite Hk1, Hk2. tauto. } { exact Hr. }
  exists oo. split; [exact E|]. intros o ->.
  split; [|split; [|split]].
  4:{ intros Hp Hfd Hz. eapply film_conserves; eauto. intros i Hi.
      destruct (HT i Hi) as (p & k & Uk & Hw & _ & _ & Hd & _ & Hfl). repeat split; try apply Hw; auto. }
  all: assert (Hfr : forall i, (i < ntraj)%nat -> col_ok 1 (T i)) by
    (intros i Hi; destruct (HT i Hi) as (p & k & _ & _ & _ & _ & _ & Hc & _); exact Hc).
  (* the re-run steps are not used: replace them by zeros *)
  all: assert (E' : calc_refl_trans 22 (d_rang D) (fun _ _ _ => 0) P false 0 (map T (seq 0 ntraj)) = Ok (Some o)) by
    (rewrite <- E; apply no_rerun_draws; exact Hr).
  all: destruct (fractions_hold 22 (d_rang D) (fun _ _ _ => 0) P 0 ntraj T o Ht Hv (or_introl Hb) Ha
     ltac:(intros; lra) Hfr E') as (A1 & A2 & A3 & _); assumption.
Qed.

(** * Spheres *)
Lemma sphere_entry_faces spot r ur uth nm ns p :
  0 < r -> 0 < spot <= 2 * r -> 0 < ur < 1 -> 0 < nm <= ns -> p = sphere_start_pos spot r ur uth ->
  exists k, sphere_entry_dir r p nm ns = Some k
    /\ 0 <= vx k * (- vx p) + vy k * (- vy p) + vz k * (- (vz p - r)).
Proof.
  intros Hr Hs Hur Hn Ep.
  assert (Hok : sphere_start_ok spot r p) by (rewrite Ep; apply sphere_start_ok_l; lra).
  assert (Hax : 0 < vx p ^ 2 + vy p ^ 2).
  { rewrite Ep. unfold sphere_start_pos. cbn [vx vy fst snd].
    set (q := sqrt ur * spot / 2). set (th := 2 * PI * uth). pose proof (cs2 th) as Hsc.
    replace ((q * cos th) ^ 2 + (q * sin th) ^ 2) with (q * q * (sin th * sin th + cos th * cos th)) by ring.
    rewrite Hsc. assert (0 < sqrt ur) by (apply sqrt_lt_R0; lra). assert (0 < q) by (unfold q; nra). nra. }
  clear Ep. destruct p as [[x y] z]. unfold sphere_start_ok in Hok. cbn [vx vy vz fst snd] in *.
  destruct Hok as (Hsph & Hz & _).
  unfold sphere_entry_dir, sphere_neg_normal. cbn [vx vy vz fst snd]. cbv zeta.
  rewrite Hsph. replace (sqrt (r ^ 2)) with r by (rewrite <- Rsqr_pow2, sqrt_Rsqr by lra; reflexivity).
  set (c := - (z - r) / r).
  assert (Hc : 0 <= c). { unfold c. apply Rmult_le_pos; [lra|left; apply Rinv_0_lt_compat; lra]. }
  assert (Hc2 : c * c = 1 - (x ^ 2 + y ^ 2) / r ^ 2).
  { unfold c. replace (x ^ 2 + y ^ 2) with (r ^ 2 - (z - r) ^ 2) by lra. field; lra. }
  assert (Hpos : 0 < (x ^ 2 + y ^ 2) / r ^ 2) by (apply Rdiv_lt_0_compat; [exact Hax|nra]).
  assert (Hc1 : c < 1) by nra.
  assert (Hcos : cos (acos c) = c) by (apply cos_acos; lra).
  assert (Hb : 0 < acos c < PI) by (apply acos_bound_lt; lra).
  assert (Hsin : 0 < sin (acos c)) by (apply sin_gt_0; lra).
  replace (Reqb (sin (acos c)) 0) with false by (symmetry; apply Reqb_false; lra).
  unfold entry_dir. rewrite !Rabs_right by lra. unfold refraction.
  set (s := sin (acos c)) in *. pose proof (SIN_bound (acos c)) as Hsb. fold s in Hsb.
  assert (Hq : 0 <= nm / ns * s <= 1).
  { assert (0 < nm / ns) by (apply Rdiv_lt_0_compat; lra).
    assert (nm / ns <= 1). { apply (Rmult_le_reg_r ns); [lra|]. unfold Rdiv. rewrite Rmult_assoc, Rinv_l by lra. lra. }
    nra. }
  replace (Rltb 1 (Rabs (nm / ns * s))) with false.
  2:{ symmetry. apply Rltb_false. rewrite Rabs_right by lra. lra. }
  eexists. split; [reflexivity|]. cbn [vx vy vz fst snd].
  rewrite sin_asin by lra.
  assert (Hca : 0 <= cos (asin (nm / ns * s))).
  { rewrite cos_asin by lra. apply sqrt_pos. }
  set (a := cos (asin (nm / ns * s))) in *. set (b := nm / ns * s) in *.
  replace (b * (- x / r / s) * - x + b * (- y / r / s) * - y + a * - (z - r))
    with (b / s * ((x ^ 2 + y ^ 2) / r) + a * (r - z)) by (field; lra).
  assert (0 <= b / s) by (apply Rmult_le_pos; [lra|left; apply Rinv_0_lt_compat; lra]).
  assert (0 <= (x ^ 2 + y ^ 2) / r) by (apply Rmult_le_pos; [lra|left; apply Rinv_0_lt_compat; lra]).
  assert (0 <= a * (r - z)) by (apply Rmult_le_pos; lra). nra.
Qed.

Lemma entry_angle_half th t p k : nth 0 (t_pos t) vzero = p -> nth 0 (t_dir t) vzero = k -> wf_len t ->
  0 <= vx k * (- vx p) + vy k * (- vy p) + vz k * (- (vz p - th / 2)) ->
  fst (sphere_entry_angle th t 1) <= PI / 2.
Proof.
  intros Hp Hk (Hl & _ & Hd) Hdot. unfold sphere_entry_angle, centred, vselect, sphere_angle_norm.
  destruct (t_pos t) as [|q pos]; [cbn in Hl; lia|]. cbn [map nth] in *. subst q. rewrite Hk.
  cbn [vx vy vz fst snd]. unfold normalize1, div_vec.
  set (m := magnitude _). destruct (Reqb m 0) eqn:E; cbn [fst snd nan_to_num vx vy vz].
  - apply acos_le_half. lra.
  - apply Reqb_false in E. assert (0 < m). { assert (0 <= m) by (apply sqrt_pos). lra. }
    apply acos_le_half. clearbody m. clear Hk Hl. destruct k as [[a b] c], p as [[x y] z]. cbn [vx vy vz fst snd] in *.
    match goal with |- 0 <= ?e => replace e with ((a * - x + b * - y + c * - (z - th / 2)) / m) by (field; lra) end.
    apply Rmult_le_pos; [exact Hdot|left; apply Rinv_0_lt_compat; lra].
Qed.

Lemma sphere_run_full nev ntraj spot mu P D :
  (0 < nev)%nat -> (0 < ntraj)%nat -> 0 < p_thickness P -> 0 < spot <= p_thickness P -> 0 < mu -> 0 <= p_muabs P ->
  (forall i, 0 < d_l0 D i < 1) -> (forall n i, 0 <= d_u D n i < 1) -> (forall d i n, 0 <= d_rstep D d i n) ->
  valid_params P ntraj -> plain P -> 0 < p_nmedium P <= p_nsample P -> p_boundary P = sphere ->
  exists o, sphere_run nev ntraj spot mu P D = Ok (Some o)
    /\ 0 <= o_refl o /\ 0 <= o_trans o /\ o_refl o + o_trans o <= 1
    /\ (full_detection P -> p_muabs P = 0 -> o_refl o + o_trans o = 1)
    /\ o_refl o = total (o_refl_per o) /\ o_trans o = total (o_trans_per o)
    /\ length (o_refl_per o) = ntraj /\ length (o_trans_per o) = ntraj
    /\ (forall i, (i < ntraj)%nat -> 0 <= nth i (o_refl_per o) 0 /\ 0 <= nth i (o_trans_per o) 0
        /\ nth i (o_refl_per o) 0 + nth i (o_trans_per o) 0 <= 1 / INR ntraj)
    /\ (exists T, (forall i, (i < ntraj)%nat -> wf_len (T i))
          /\ calc_refl_trans 22 (d_rang D) (d_rstep D) P false 0 (map T (seq 0 ntraj)) = Ok (Some o)).
Proof.
  intros Hn Ht Hth Hsp Hm Ha H0 Hu Hrs Hv Hp Hns Hb. unfold sphere_run, initialize_sphere. cbn [bind].
  set (l := map _ (seq 0 ntraj)).
  destruct (trajectories_ok nev ntraj mu (p_muabs P) D l
     (fun _ p k => in_sphere (p_thickness P / 2) p /\
        0 <= vx k * (- vx p) + vy k * (- vy p) + vz k * (- (vz p - p_thickness P / 2))) Hn Hm Hu Ha) as (T & -> & HT).
  { unfold l. now rewrite map_length, seq_length. }
  { intros j s Hj. unfold l in Hj. apply map_seq_nth_error in Hj as [_ <-].
    set (p := sphere_start_pos spot (p_thickness P / 2) (d_l0 D j) (d_l1 D j)).
    destruct (sphere_entry_faces spot (p_thickness P / 2) (d_l0 D j) (d_l1 D j) (p_nmedium P) (p_nsample P) p
      ltac:(lra) ltac:(lra) (H0 j) Hns eq_refl) as (k & Ek & Hk).
    exists p, k. rewrite Ek. split; [reflexivity|]. split; [|exact Hk].
    destruct (sphere_start_ok_l spot (p_thickness P / 2) (d_l0 D j) (d_l1 D j)) as (Hs & _); try lra.
    { specialize (H0 j). lra. } unfold in_sphere. fold p in Hs. lra. }
  cbn [bind].
  destruct (sphere_numbers 22 (d_rang D) (d_rstep D) P 0 ntraj T ltac:(lia) Hv Hp Hb Hth eq_refl) as [o E].
  { intros i Hi. destruct (HT i Hi) as (p & k & (Hin & Hf) & Hw & Ep & Ek & _). split; [exact Hw|].
    rewrite Ep. split; [exact Hin|]. eapply entry_angle_half; eauto. }
  exists o. split; [exact E|].
  destruct (fractions_hold 22 (d_rang D) (d_rstep D) P 0 ntraj T o Ht Hv (or_intror (proj1 Hp)) Ha) as (A1 & A2 & A3 & A4).
  - intros; apply Hrs.
  - intros i Hi. destruct (HT i Hi) as (p & k & _ & _ & _ & _ & _ & Hc & _). exact Hc.
  - exact E.
  - do 3 (split; [assumption|]). split; [|destruct A4 as (B1 & B2 & B3 & B4 & B5); do 5 (split; [assumption|]); exists T; split; [|exact E]; intros i Hi; destruct (HT i Hi) as (p & k & _ & Hw & _); exact Hw]. intros Hfd Hz. eapply sphere_conserves; eauto.
    intros i Hi. destruct (HT i Hi) as (p & k & _ & Hw & _ & _ & _ & _ & Hfl). auto.
Qed.

Lemma sphere_run_ok nev ntraj spot mu P D :
  (0 < nev)%nat -> (0 < ntraj)%nat -> 0 < p_thickness P -> 0 < spot <= p_thickness P -> 0 < mu -> 0 <= p_muabs P ->
  (forall i, 0 < d_l0 D i < 1) -> (forall n i, 0 <= d_u D n i < 1) -> (forall d i n, 0 <= d_rstep D d i n) ->
  valid_params P ntraj -> plain P -> 0 < p_nmedium P <= p_nsample P -> p_boundary P = sphere ->
  exists o, sphere_run nev ntraj spot mu P D = Ok (Some o)
    /\ 0 <= o_refl o /\ 0 <= o_trans o /\ o_refl o + o_trans o <= 1
    /\ (full_detection P -> p_muabs P = 0 -> o_refl o + o_trans o = 1).
Proof.
  intros H1 H2 H3 H4 H5 H6 H7 H8 H9 H10 H11 H12 H13.
  destruct (sphere_run_full nev ntraj spot mu P D H1 H2 H3 H4 H5 H6 H7 H8 H9 H10 H11 H12 H13) as (o & E & A1 & A2 & A3 & A4 & _).
  exists o. auto.
Qed.
