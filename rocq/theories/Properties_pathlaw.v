(** C160: absorption acts through the path length.  Vocabulary in
    Spec_pathlaw.v and Spec_direct.v. *)
From Coq Require Import Lra Lia Psatz Reals List ZArith.
From Verif Require Import Num Spec Spec_detector Spec_direct Spec_estimate Spec_pathlaw M_init M_montecarlo M_detector M_event_distribution M_simulation
  L_num L_init L_exits L_meta L_meta3 L_meta4 L_local L_rough L_direct L_estimate L_pathlaw Properties_detector Properties_simulation Properties_direct.
Import ListNotations.
Open Scope R_scope.

(** Whatever the trajectories, a call without re-runs on the same trajectories
    with absorption coefficients 0 and [a]: they leave at the same events, the
    light reflected on entry is the same, and what each sends through the front
    and the back is the unabsorbed amount times exp (- a * path length), the
    path length being the one [calc_path_length] gives. *)
Theorem C160_path_law : forall fuel angs steps P d walks a o0 o,
  p_run P = false -> p_gonio P = None -> p_kz0rot P = None -> p_kz0refl P = None ->
  calc_refl_trans (S fuel) angs steps P false d (map (absorbed 0) walks) = Ok (Some o0) ->
  calc_refl_trans (S fuel) angs steps P false d (map (absorbed a) walks) = Ok (Some o) ->
  o_refl_i o = o_refl_i o0 /\ o_trans_i o = o_trans_i o0 /\ o_inc_refl o = o_inc_refl o0
  /\ o_refl_pass o = weakened a (o_refl_pass o0) (calc_path_length (map k_steps walks) (o_refl_i o0))
  /\ o_trans_pass o = weakened a (o_trans_pass o0) (calc_path_length (map k_steps walks) (o_trans_i o0)).
Proof. intros. now apply (view_pathlaw P a walks fuel angs steps d). Qed.
Print Assumptions C160_path_law.

(** The same for whole runs on films ... *)
Theorem C160_film : forall nevents ntraj spot tmin tmax pmin pmax mu_scat P D a o0 o,
  (0 < nevents)%nat -> 0 < mu_scat -> plain_film P -> 0 <= a ->
  film_run nevents ntraj spot tmin tmax pmin pmax mu_scat (with_absorption 0 P) D = Ok (Some o0) ->
  film_run nevents ntraj spot tmin tmax pmin pmax mu_scat (with_absorption a P) D = Ok (Some o) ->
  let steps := drawn_steps nevents ntraj mu_scat D in
  o_refl_i o = o_refl_i o0 /\ o_trans_i o = o_trans_i o0 /\ o_inc_refl o = o_inc_refl o0
  /\ o_refl_pass o = weakened a (o_refl_pass o0) (calc_path_length steps (o_refl_i o0))
  /\ o_trans_pass o = weakened a (o_trans_pass o0) (calc_path_length steps (o_trans_i o0)).
Proof.
  intros nev n spot tmin tmax pmin pmax mu P D a o0 o Hn Hmu HP Ha H0 H steps.
  assert (Q : forall x, 0 <= x -> plain_film (with_absorption x P)).
  { intros x Hx. unfold plain_film, with_absorption in *. cbn [p_boundary p_run p_gonio p_kz0rot p_kz0refl p_nparticle p_zlow p_thickness p_muabs p_nmedium p_nsample p_nfront p_nback]. tauto. }
  rewrite (fl_run nev spot tmin tmax pmin pmax mu (with_absorption 0 P) Hn Hmu (Q 0 (Rle_refl 0))) in H0.
  rewrite (fl_run nev spot tmin tmax pmin pmax mu (with_absorption a P) Hn Hmu (Q a Ha)) in H.
  destruct HP as (Hb & Hr & Hg & Hk1 & Hk2 & _).
  rewrite (map_ext _ (fun i => absorbed 0 (made_walk nev mu D (fl_pos spot D i) (fl_dir tmin tmax pmin pmax P D i) i))) in H0 by (intros i; apply made_absorbed).
  rewrite (map_ext _ (fun i => absorbed a (made_walk nev mu D (fl_pos spot D i) (fl_dir tmin tmax pmin pmax P D i) i))) in H by (intros i; apply made_absorbed).
  rewrite <- (map_map _ (absorbed 0)) in H0. rewrite <- (map_map _ (absorbed a)) in H.
  rewrite crt_view in H0, H by assumption.
  destruct (C160_path_law 21 (d_rang D) (d_rstep D) P 0 _ a o0 o Hr Hg Hk1 Hk2
    (eq_trans (crt_view 21 (d_rang D) (d_rstep D) P false 0 _ Hr Hg) H0) (eq_trans (crt_view 21 (d_rang D) (d_rstep D) P false 0 _ Hr Hg) H)) as (A1 & A2 & A3 & A4 & A5).
  rewrite made_steps in A4, A5. auto.
Qed.
Print Assumptions C160_film.

(** ... and on spheres. *)
Theorem C160_sphere : forall nevents ntraj spot mu_scat P D a o0 o,
  (0 < nevents)%nat -> 0 < mu_scat -> 0 < p_thickness P -> 0 < spot <= p_thickness P -> p_boundary P = sphere -> p_run P = false -> plain P ->
  0 < p_nmedium P <= p_nsample P -> good_draws D -> 0 <= a ->
  sphere_run nevents ntraj spot mu_scat (with_absorption 0 P) D = Ok (Some o0) ->
  sphere_run nevents ntraj spot mu_scat (with_absorption a P) D = Ok (Some o) ->
  let steps := drawn_steps nevents ntraj mu_scat D in
  o_refl_i o = o_refl_i o0 /\ o_trans_i o = o_trans_i o0 /\ o_inc_refl o = o_inc_refl o0
  /\ o_refl_pass o = weakened a (o_refl_pass o0) (calc_path_length steps (o_refl_i o0))
  /\ o_trans_pass o = weakened a (o_trans_pass o0) (calc_path_length steps (o_trans_i o0)).
Proof.
  intros nev n spot mu P D a o0 o Hn Hmu Hd Hsp Hb Hr Hp Hns HD Ha H0 H steps.
  destruct Hp as (Hg & Hk1 & Hk2 & _).
  rewrite (sp_run nev spot mu (with_absorption 0 P) Hn Hmu Hd Hsp Hns n D HD) in H0.
  rewrite (sp_run nev spot mu (with_absorption a P) Hn Hmu Hd Hsp Hns n D HD) in H.
  rewrite (map_ext _ (fun i => absorbed 0 (made_walk nev mu D (sp_pos spot P D i) (sp_dir spot P D i) i))) in H0 by (intros i; apply made_absorbed).
  rewrite (map_ext _ (fun i => absorbed a (made_walk nev mu D (sp_pos spot P D i) (sp_dir spot P D i) i))) in H by (intros i; apply made_absorbed).
  rewrite <- (map_map _ (absorbed 0)) in H0. rewrite <- (map_map _ (absorbed a)) in H.
  rewrite crt_view in H0, H by assumption.
  destruct (C160_path_law 21 (d_rang D) (d_rstep D) P 0 _ a o0 o Hr Hg Hk1 Hk2
    (eq_trans (crt_view 21 (d_rang D) (d_rstep D) P false 0 _ Hr Hg) H0) (eq_trans (crt_view 21 (d_rang D) (d_rstep D) P false 0 _ Hr Hg) H)) as (A1 & A2 & A3 & A4 & A5).
  rewrite made_steps in A4, A5. auto.
Qed.
Print Assumptions C160_sphere.

(** Absorption changes nothing but the weights. *)
Lemma view_abs x P t : film_view (with_absorption x P) t = film_view P t.
Proof. reflexivity. Qed.
Lemma rp_abs x P v : c_rp (with_absorption x P) false v = c_rp P false v.
Proof. reflexivity. Qed.
Lemma tp_abs x P v : c_tp (with_absorption x P) false v = c_tp P false v.
Proof. reflexivity. Qed.
Lemma dir_abs tmin tmax pmin pmax x P D i : fl_dir tmin tmax pmin pmax (with_absorption x P) D i = fl_dir tmin tmax pmin pmax P D i.
Proof. reflexivity. Qed.
Lemma traj_abs nev spot tmin tmax pmin pmax mu x P D i : fl_traj nev spot tmin tmax pmin pmax mu (with_absorption x P) D i
  = absorbed x (made_walk nev mu D (fl_pos spot D i) (fl_dir tmin tmax pmin pmax P D i) i).
Proof. unfold fl_traj. rewrite made_absorbed, dir_abs. reflexivity. Qed.

(** More absorption lets less light through either surface of a film. *)
Theorem C160_more_absorption_less_light : forall nevents ntraj spot tmin tmax pmin pmax mu_scat P D a b,
  (0 < nevents)%nat -> (0 < ntraj)%nat -> 0 < mu_scat -> plain_film P -> (forall n i, 0 <= d_u D n i < 1) -> 0 <= a <= b ->
  let run c := film_run nevents ntraj spot tmin tmax pmin pmax mu_scat (with_absorption c P) D in
  0 <= front_of (run b) <= front_of (run a) /\ 0 <= back_of (run b) <= back_of (run a).
Proof.
  intros nev n spot tmin tmax pmin pmax mu P D a b Hn Hnt Hmu HP Hu Hab run. assert (HI : 0 < INR n) by now apply lt_0_INR.
  assert (Q : forall x, 0 <= x -> plain_film (with_absorption x P)).
  { intros x Hx. unfold plain_film, with_absorption in *. cbn [p_boundary p_run p_gonio p_kz0rot p_kz0refl p_nparticle p_zlow p_thickness p_muabs p_nmedium p_nsample p_nfront p_nback]. tauto. }
  set (W := fun i => made_walk nev mu D (fl_pos spot D i) (fl_dir tmin tmax pmin pmax P D i) i).
  assert (X : forall x, 0 <= x -> front_of (run x) = total (map (fun i => c_rp P false (film_view P (absorbed x (W i)))) (seq 0 n)) / INR n
    /\ back_of (run x) = total (map (fun i => c_tp P false (film_view P (absorbed x (W i)))) (seq 0 n)) / INR n).
  { intros x Hx. destruct (fl_split nev spot tmin tmax pmin pmax mu (with_absorption x P) Hn Hmu (Q x Hx) n D Hnt Hu) as [E1 E2].
    unfold run. rewrite E1, E2. split.
    - apply (f_equal (fun l => total l / INR n)). apply map_ext. intros i. rewrite rp_abs, view_abs, traj_abs. reflexivity.
    - apply (f_equal (fun l => total l / INR n)). apply map_ext. intros i. rewrite tp_abs, view_abs, traj_abs. reflexivity. }
  destruct (X a ltac:(lra)) as [-> ->], (X b ltac:(lra)) as [-> ->].
  assert (Hs : forall i k, 0 <= Rsum (firstn k (k_steps (W i)))).
  { intros i k. change (k_steps (W i)) with (steps_of nev mu D i). change (Rsum (firstn k (steps_of nev mu D i))) with (total (firstn k (steps_of nev mu D i))). apply total_nonneg, Forall_forall. intros x Hx.
    assert (Hx' : In x (steps_of nev mu D i)) by (rewrite <- (firstn_skipn k); apply in_or_app; now left). clear Hx. rename Hx' into Hx. unfold steps_of in Hx. apply in_map_iff in Hx. destruct Hx as (j & <- & _). apply L_montecarlo.step_nonneg; [lra|apply Hu]. }
  destruct (fl_views nev spot tmin tmax pmin pmax mu (with_absorption 0 P) Hn Hmu (Q 0 (Rle_refl 0)) n D _ Hu eq_refl) as (V1 & V2 & V3 & _).
  pose proof (fl_nt P HP) as Ent.
  destruct HP as (Hb & Hr & Hg & Hk1 & Hk2 & Hp & Hz & Hth & Ha & Hm & Hf & Hbk).
  assert (N : forall i, In i (seq 0 n) -> 0 <= c_rp P false (film_view P (absorbed 0 (W i))) /\ 0 <= c_tp P false (film_view P (absorbed 0 (W i)))).
  { intros i Hi.
    assert (In0 : In (film_view (with_absorption 0 P) (fl_traj nev spot tmin tmax pmin pmax mu (with_absorption 0 P) D i))
       (map (film_view (with_absorption 0 P)) (map (fl_traj nev spot tmin tmax pmin pmax mu (with_absorption 0 P) D) (seq 0 n)))) by (now apply in_map, in_map).
    destruct (c_range (with_absorption 0 P) false _ ltac:(exact (proj1 Hm)) ltac:(change (0 < choose_n_tir P); lra) Hf Hbk V3 _ In0 (V1 _ In0)) as (R1 & R2 & _).
    rewrite rp_abs, view_abs, traj_abs in R1. rewrite tp_abs, view_abs, traj_abs in R2. exact (conj R1 R2). }
  assert (G : forall x i, c_rp P false (film_view P (absorbed x (W i))) = c_rp P false (film_view P (absorbed 0 (W i))) * exp (- (x * Rsum (firstn (v_r (film_view P (absorbed 0 (W i)))) (k_steps (W i)))))
     /\ c_tp P false (film_view P (absorbed x (W i))) = c_tp P false (film_view P (absorbed 0 (W i))) * exp (- (x * Rsum (firstn (v_t (film_view P (absorbed 0 (W i)))) (k_steps (W i)))))).
  { intros x i. rewrite (view_absorbed P x). set (v := film_view P (absorbed 0 (W i))). split; unfold c_rp, c_tp, c_rw, c_tw; cbn [v_wr v_wt v_ar v_at v_inc].
    - change (v_inc P false v * (v_wr v * exp (- (x * Rsum (firstn (v_r v) (k_steps (W i)))))) * L_weights.pf1 (choose_n_tir P) (p_nfront P) (p_nmedium P) (v_ar v)
      = v_inc P false v * v_wr v * L_weights.pf1 (choose_n_tir P) (p_nfront P) (p_nmedium P) (v_ar v) * exp (- (x * Rsum (firstn (v_r v) (k_steps (W i)))))). ring.
    - change (v_inc P false v * (v_wt v * exp (- (x * Rsum (firstn (v_t v) (k_steps (W i)))))) * L_weights.pf1 (choose_n_tir P) (p_nback P) (p_nmedium P) (v_at v)
      = v_inc P false v * v_wt v * L_weights.pf1 (choose_n_tir P) (p_nback P) (p_nmedium P) (v_at v) * exp (- (x * Rsum (firstn (v_t v) (k_steps (W i)))))). ring. }
  assert (Mono : forall (f : nat -> R) (L : nat -> R) (g : R -> nat -> R), (forall x i, g x i = f i * exp (- (x * L i))) -> (forall i, 0 <= L i) ->
     (forall i, In i (seq 0 n) -> 0 <= f i) -> 0 <= total (map (g b) (seq 0 n)) / INR n <= total (map (g a) (seq 0 n)) / INR n).
  { intros f L g Eg HL Hf0. 
    assert (Z : 0 <= total (map (g b) (seq 0 n)) <= total (map (g a) (seq 0 n))).
    { revert Hf0. generalize (seq 0 n). intros l. induction l as [|i l IH]; intros Hf0; cbn [map total]; [lra|].
      destruct IH as [I1 I2]; [intros; apply Hf0; now right|]. pose proof (Hf0 i (or_introl eq_refl)) as F. rewrite !Eg. 
      assert (E1 : exp (- (b * L i)) <= exp (- (a * L i))).
      { assert (Hle : - (b * L i) <= - (a * L i)) by (pose proof (HL i); nra). destruct Hle as [Hle|Hle]; [left; now apply exp_increasing|rewrite Hle; lra]. }
      pose proof (exp_pos (- (b * L i))). pose proof (Rmult_le_compat_l _ _ _ F E1). assert (0 <= f i * exp (- (b * L i))) by (apply Rmult_le_pos; lra). lra. }
    split; [apply Rmult_le_pos; [lra|left; now apply Rinv_0_lt_compat]|]. apply Rmult_le_compat_r; [left; now apply Rinv_0_lt_compat|lra]. }
  split.
  - apply (Mono (fun i => c_rp P false (film_view P (absorbed 0 (W i)))) (fun i => Rsum (firstn (v_r (film_view P (absorbed 0 (W i)))) (k_steps (W i))))
      (fun x i => c_rp P false (film_view P (absorbed x (W i))))); [intros x i; apply G|intros; apply Hs|intros i Hi; now apply N].
  - apply (Mono (fun i => c_tp P false (film_view P (absorbed 0 (W i)))) (fun i => Rsum (firstn (v_t (film_view P (absorbed 0 (W i)))) (k_steps (W i))))
      (fun x i => c_tp P false (film_view P (absorbed x (W i))))); [intros x i; apply G|intros; apply Hs|intros i Hi; now apply N].
Qed.
Print Assumptions C160_more_absorption_less_light.

(** But the length is not the path inside the sample: it counts the whole of the
    last step, also the part beyond the surface.  For a trajectory of a smooth
    film that leaves with its step number e, there is a distance d, at most that
    step, after which it meets the surface it leaves through; if it goes on
    beyond, an absorbing film gives less light than absorption along the path
    inside the film (or its mirror images, for internal reflections) leaves. *)
Theorem C160_path_inside_refuted : forall fuel angs steps P d walks a o0 o i w e,
  plain_film P ->
  calc_refl_trans (S fuel) angs steps P false d (map (absorbed 0) walks) = Ok (Some o0) ->
  calc_refl_trans (S fuel) angs steps P false d (map (absorbed a) walks) = Ok (Some o) ->
  nth_error walks i = Some w -> proper_walk w ->
  forall ind pass0 pass, (ind, pass0, pass) = (o_refl_i o0, o_refl_pass o0, o_refl_pass o) \/ (ind, pass0, pass) = (o_trans_i o0, o_trans_pass o0, o_trans_pass o) ->
  nth_error ind i = Some (S e) ->
  exists dist, 0 <= dist <= nth e (k_steps w) 0
    /\ meets_surface (p_thickness P) (vz (nth e (k_pos w) vzero)) (vz (nth e (k_dir w) vzero)) dist
    /\ (0 < a -> 0 < nth i pass0 0 -> dist < nth e (k_steps w) 0 ->
        nth i pass 0 < nth i pass0 0 * exp (- (a * (Rsum (firstn e (k_steps w)) + dist)))).
Proof.
  intros fuel angs steps P d W a o0 o i w e HP H0 H Hi Hw ind pass0 pass Hc He. pose proof HP as HP'.
  destruct HP as (Hb & Hr & Hg & Hk1 & Hk2 & Hp & Hz & Hth & _ & Hm & _).
  assert (Ent : choose_n_tir P = p_nsample P) by (unfold choose_n_tir; rewrite Hp; apply Rabs_pos_eq; lra).
  destruct (C160_path_law fuel angs steps P d W a o0 o Hr Hg Hk1 Hk2 H0 H) as (_ & _ & _ & A4 & A5).
  rewrite crt_view in H0 by assumption. destruct (view_all P _ o0 Hk1 Hk2 H0) as (B1 & B2 & _). destruct (view_pass P _ o0 Hk1 Hk2 H0) as (B4 & B5).
  rewrite map_map in B1, B2, B4, B5. rewrite map_map in B1, B2, B4, B5.
  assert (Li : (i < length W)%nat) by (apply nth_error_Some; congruence).
  assert (Ei : v_r (film_view P (absorbed 0 w)) = S e \/ v_t (film_view P (absorbed 0 w)) = S e).
  { destruct Hc as [Hc|Hc]; injection Hc as -> -> ->; [rewrite B1 in He|rewrite B2 in He]; rewrite nth_error_map, Hi in He; injection He as He; auto. }
  destruct (exit_at P w e Hb Hz Hth ltac:(lra) Hw Ei) as (Le & dist & Hd & Hs). exists dist. split; [exact Hd|]. split; [exact Hs|].
  intros Ha H00 Hlt.
  assert (Wk : forall p q l, l = map (fun x => v_r (film_view P (absorbed 0 x))) W \/ l = map (fun x => v_t (film_view P (absorbed 0 x))) W -> length p = length W ->
     q = weakened a p (calc_path_length (map k_steps W) l) -> nth_error l i = Some (S e) -> nth i q 0 = nth i p 0 * exp (- (a * Rsum (firstn (S e) (k_steps w))))).
  { intros p q l Hl Lp -> Hle. assert (Ll : length l = length W) by (destruct Hl as [-> | ->]; apply map_length).
    unfold weakened, calc_path_length. rewrite (L_rough.nth_map2 _ _ _ _ 0 0 0); [|exact (eq_ind_r (fun k => (i < k)%nat) Li Lp)|rewrite map2_length, map_length, Ll, Nat.min_id; exact Li].
    rewrite (L_rough.nth_map2 _ _ _ _ nil 0%nat 0) by (rewrite ?map_length, ?Ll; exact Li).
    rewrite (nth_error_nth _ _ 0%nat Hle). change (@nil R) with (k_steps (mk_walk nil nil nil)). rewrite map_nth, (nth_error_nth _ _ _ Hi). reflexivity. }
  assert (Eq : nth i pass 0 = nth i pass0 0 * exp (- (a * Rsum (firstn (S e) (k_steps w))))).
  { destruct Hc as [Hc|Hc]; injection Hc as -> -> ->.
    - apply (Wk _ _ _ (or_introl B1)); [rewrite B4; apply map_length|exact A4|exact He].
    - apply (Wk _ _ _ (or_intror B2)); [rewrite B5; apply map_length|exact A5|exact He]. }
  rewrite Eq. apply Rmult_lt_compat_l; [exact H00|]. apply exp_increasing.
  assert (Sp : Rsum (firstn (S e) (k_steps w)) = Rsum (firstn e (k_steps w)) + nth e (k_steps w) 0).
  { clear - Le. revert e Le. induction (k_steps w) as [|s l IH]; intros e Le; [cbn in Le; lia|]. destruct e as [|e]; [cbn; lra|].
    cbn [length] in Le. specialize (IH e ltac:(lia)). change (s + Rsum (firstn (S e) l) = s + Rsum (firstn e l) + nth e l 0). rewrite IH. ring. }
  rewrite Sp. nra.
Qed.
Print Assumptions C160_path_inside_refuted.

(** The film of C156 with steps of 10 ln 2 (longer than the film): every
    absorption coefficient gives an answer ... *)
Definition long_steps : draws :=
  mk_draws (fun _ => 1 / 2) (fun _ => 1 / 3) (fun _ => 1 / 2) (fun _ => 1 / 4) (fun _ _ => (0, 0)) (fun _ _ => 1 / 2) (fun _ _ _ => (0, 0)) (fun _ _ _ => 0).
Lemma long_answer nev n a : (0 < nev)%nat -> (0 < n)%nat -> 0 <= a ->
  exists o, film_run nev n 1 0 0 0 0 (1 / 10) (with_absorption a (direct_film 0)) long_steps = Ok (Some o)
    /\ forall i, (i < n)%nat -> nth i (o_trans_i o) 0%nat = 1%nat /\ 0 < nth i (o_trans_pass o) 0.
Proof.
  intros Hnev Hn Ha. assert (HI : 0 < INR n) by now apply lt_0_INR. set (P := with_absorption a (direct_film 0)).
  assert (HP : plain_film P) by exact (proj1 (C156_case a Ha)).
  assert (Hu : forall n i, 0 <= d_u long_steps n i < 1) by (intros; cbn; lra).
  assert (Hs : p_thickness P <= - ln (1 - 1 / 2) / (1 / 10)).
  { change (2 <= - ln (1 - 1 / 2) / (1 / 10)). replace (1 - 1 / 2) with (/ 2) by lra. rewrite ln_Rinv by lra. pose proof ln_lt_2. lra. }
  assert (Hc : 0 < both_surfaces P).
  { pose proof HP as (_ & _ & _ & _ & _ & _ & _ & _ & _ & Hm & Hf & Hbk). unfold both_surfaces. apply Rmult_lt_0_compat; apply through_range; assumption || lra. }
  assert (S0 : exists o, film_run nev n 1 0 0 0 0 (1 / 10) P long_steps = Ok (Some o)).
  { assert (Ra : film_run nev n 1 0 0 0 0 (1 / 10) P long_steps = Ok None \/ exists o, film_run nev n 1 0 0 0 0 (1 / 10) P long_steps = Ok (Some o)).
    { pose proof HP as (Hb & Hr & Hg & Hk1 & Hk2 & Hp & Hz & Hth & _ & Hm & Hf & Hbk).
      destruct (L_simulation.film_run_ok nev n 1 0 0 0 0 (1 / 10) P long_steps) as ([o|] & E & _); try assumption; try lra; eauto.
      - intros i. cbn. lra. - intros i. cbn. lra.
      - unfold valid_params, P, with_absorption, direct_film; cbn. repeat split; try lra; try discriminate. intros m E. injection E as <-. lra. }
    destruct Ra as [E|E]; [exfalso|exact E].
    pose proof (plain_tir P HP) as Ht.
    pose proof HP as (Hb & Hr & Hg & Hk1 & Hk2 & Hp & Hz & Hth & _ & Hm & Hf & Hbk).
    assert (Hm' : 0 < p_nmedium P <= choose_n_tir P) by (rewrite Ht; exact Hm).
    pose proof (direct_run nev n 1 0 0 (1 / 10) P long_steps Hnev ltac:(lra) Ha Hu Hb Hr Hg Hz Hk1 Hk2 Hth Hm' Hf Hbk) as Q.
    rewrite E in Q. cbn [direct_fraction] in Q. change (fold_right Rplus 0) with total in Q.
    rewrite (map_ext _ (fun _ => both_surfaces P * exp (- (p_muabs P * (- ln (1 - 1 / 2) / (1 / 10)))) / INR n)) in Q.
    2:{ intros i. rewrite (proj2 (Rleb_true _ _)) by exact Hs. unfold both_surfaces. rewrite <- Ht. reflexivity. }
    set (c := both_surfaces P * _ / INR n) in Q.
    assert (C0 : 0 < c) by (apply Rdiv_lt_0_compat; [apply Rmult_lt_0_compat; [exact Hc|apply exp_pos]|exact HI]).
    rewrite total_map_const, seq_length in Q. nra. }
  destruct S0 as [o E]. exists o. split; [exact E|]. intros i Hi.
  destruct (C156_exit_weight nev n 1 0 0 (1 / 10) P long_steps o i HP Hnev ltac:(lra) Hu E Hi) as [A B].
  split; [apply A; exact Hs|]. rewrite B by exact Hs. apply Rdiv_lt_0_compat; [apply Rmult_lt_0_compat; [exact Hc|apply exp_pos]|exact HI].
Qed.
Example C160_film_case : forall a, 0 <= a -> plain_film (direct_film 0) /\ (forall n i, 0 <= d_u long_steps n i < 1)
  /\ exists o0 o, film_run 5 7 1 0 0 0 0 (1 / 10) (with_absorption 0 (direct_film 0)) long_steps = Ok (Some o0)
       /\ film_run 5 7 1 0 0 0 0 (1 / 10) (with_absorption a (direct_film 0)) long_steps = Ok (Some o).
Proof.
  intros a Ha. split; [exact (proj1 (C156_case 0 (Rle_refl 0)))|]. split; [intros; cbn; lra|].
  destruct (long_answer 5 7 0 ltac:(lia) ltac:(lia) (Rle_refl 0)) as (o0 & E0 & _). destruct (long_answer 5 7 a ltac:(lia) ltac:(lia) Ha) as (o & E & _). exists o0, o. split; [exact E0|exact E].
Qed.
(** ... and the trajectory that overshoots carries out too little. *)
Example C160_overshoot_case : exists fuel angs steps d w o0 o, let P := direct_film 0 in
  calc_refl_trans (S fuel) angs steps P false d (map (absorbed 0) (cons w nil)) = Ok (Some o0)
  /\ calc_refl_trans (S fuel) angs steps P false d (map (absorbed 1) (cons w nil)) = Ok (Some o)
  /\ proper_walk w /\ nth_error (o_trans_i o0) 0 = Some 1%nat /\ 0 < nth 0 (o_trans_pass o0) 0
  /\ 2 < nth 0 (k_steps w) 0 /\ meets_surface 2 (vz (nth 0 (k_pos w) vzero)) (vz (nth 0 (k_dir w) vzero)) 2.
Proof.
  set (P := direct_film 0).
  destruct (long_answer 1 1 0 ltac:(lia) ltac:(lia) (Rle_refl 0)) as (o0 & E0 & F0). destruct (long_answer 1 1 1 ltac:(lia) ltac:(lia) ltac:(lra)) as (o & E & _).
  pose proof (fl_run 1 1 0 0 0 0 (1 / 10) (with_absorption 0 P) ltac:(lia) ltac:(lra) (proj1 (C156_case 0 (Rle_refl 0))) 1 long_steps) as Q0.
  pose proof (fl_run 1 1 0 0 0 0 (1 / 10) (with_absorption 1 P) ltac:(lia) ltac:(lra) (proj1 (C156_case 1 ltac:(lra))) 1 long_steps) as Q1.
  set (w := made_walk 1 (1 / 10) long_steps (fl_pos 1 long_steps 0) (fl_dir 0 0 0 0 P long_steps 0) 0).
  exists 21%nat, (d_rang long_steps), (d_rstep long_steps), 0%nat, w, o0, o. cbv zeta.
  assert (Ed : fl_dir 0 0 0 0 P long_steps 0 = ez).
  { unfold fl_dir, fl_entry. change (p_nmedium P) with 1. change (p_nsample P) with (5 / 4). unfold uniform.
    match goal with |- match ?e with _ => _ end = _ => replace e with (Some ez) end; [reflexivity|]. symmetry.
    replace (0 + (0 - 0) * d_l2 long_steps 0) with 0 by ring. exact (L_fieldflow.entry_normal _ _ _ _). }
  assert (Ew : w = mk_walk (cons (1 / 2 * 1, 1 / 3 * 1, 0) (cons (1 / 2 * 1, 1 / 3 * 1, 10 * ln 2) nil)) (cons ez nil) (cons (10 * ln 2) nil)).
  { unfold w, made_walk. rewrite Ed. assert (Es : steps_of 1 (1 / 10) long_steps 0 = cons (10 * ln 2) nil).
    { unfold steps_of, step_of. cbn [map seq d_u long_steps]. f_equal. replace (1 - 1 / 2) with (/ 2) by lra. rewrite ln_Rinv by lra. field. }
    rewrite Es. change (fl_pos 1 long_steps 0) with (1 / 2 * 1, 1 / 3 * 1, 0). 
    cbn [repeat move map2 vcumsum_from vscale vadd vzero ez vx vy vz fst snd].
    refine (f_equal2 (fun l m => mk_walk l m _) (f_equal2 cons _ (f_equal2 cons _ eq_refl)) eq_refl).
    - unfold vadd, vzero. cbn [vx vy vz fst snd]. apply (f_equal2 pair); [apply (f_equal2 pair)|]; ring.
    - cbn [scat_dir]. unfold vadd, vscale, vzero, ez. cbn [vx vy vz fst snd]. apply (f_equal2 pair); [apply (f_equal2 pair)|]; ring. }
  assert (El : 1 / 2 < ln 2) by (pose proof ln_lt_2; lra).
  refine (conj _ (conj _ (conj _ (conj _ (conj _ (conj _ _)))))).
  - refine (eq_trans _ E0). refine (eq_trans _ (eq_sym Q0)). cbn [map seq]. unfold fl_traj. rewrite made_absorbed. rewrite !crt_view by reflexivity. reflexivity.
  - refine (eq_trans _ E). refine (eq_trans _ (eq_sym Q1)). cbn [map seq]. unfold fl_traj. rewrite made_absorbed. rewrite !crt_view by reflexivity. reflexivity.
  - rewrite Ew. unfold proper_walk. cbn [k_steps k_dir k_pos length nth In]. split; [lia|]. split; [reflexivity|]. split; [reflexivity|].
    split; [intros k [<-|[]]; cbn; lra|]. split; [intros x [<-|[]]; lra|]. intros j Hj. destruct j as [|j]; [cbn; lra|lia].
  - destruct (F0 0%nat ltac:(lia)) as [F1 _]. destruct (o_trans_i o0) as [|x l]; [discriminate|]. cbn in F1 |- *. now rewrite F1.
  - apply (F0 0%nat). lia.
  - rewrite Ew. cbn. lra.
  - rewrite Ew. cbn [k_pos k_dir nth ez vz]. split; [exists 1%Z; cbn; lra|]. intros x Hx m Em.
    assert (A : IZR 0 < IZR m < IZR 1) by (cbn; cbn in Em; lra). destruct A as [A1 A2]. apply lt_IZR in A1, A2. lia.
Qed.
Example C160_sphere_case : forall a, 0 <= a ->
  let P := mk_params 10 1 (4 / 3) sphere 0 (PI / 2) None None false 20 (1 / 100) 0 None None None 0 None None in
  plain P /\ good_draws half_draws /\ exists o0 o, sphere_run 30 10 5 (1 / 10) (with_absorption 0 P) half_draws = Ok (Some o0)
    /\ sphere_run 30 10 5 (1 / 10) (with_absorption a P) half_draws = Ok (Some o).
Proof.
  intros a Ha P. split; [repeat split|]. assert (G : good_draws half_draws) by (split; intros; [cbn; lra|apply mod2_half]). split; [exact G|].
  assert (Q : forall x, 0 <= x -> exists o, sphere_run 30 10 5 (1 / 10) (with_absorption x P) half_draws = Ok (Some o)).
  { intros x Hx. destruct (L_simulation.sphere_run_ok 30 10 5 (1 / 10) (with_absorption x P) half_draws) as (o & E & _); try lia; try (cbn; lra); try apply G; try reflexivity.
    - intros. apply pos_INR.
    - unfold valid_params, with_absorption, P; cbn. repeat split; try lra; discriminate.
    - repeat split.
    - eauto. }
  destruct (Q 0 (Rle_refl 0)) as [o0 E0], (Q a Ha) as [o E]. exists o0, o. split; [exact E0|exact E].
Qed.
