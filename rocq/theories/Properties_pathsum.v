(** C178: a sphere's reflectance and transmittance against absorption. *)
From Coq Require Import Lra Lia Psatz Reals List Bool.
From Verif Require Import Num Spec Spec_detector Spec_direct Spec_meta Spec_estimate Spec_pathlaw Spec_pathsum M_init M_montecarlo M_detector M_event_distribution M_simulation
  L_num L_init L_weights L_outcomes L_exits L_meta L_meta3 L_meta4 L_pool L_local L_rough L_direct L_estimate L_pathlaw L_fresnel L_simulation
  Properties_init Properties_detector Properties_meta Properties_pathlaw Properties_black.
Import ListNotations.
Open Scope R_scope.

Lemma parts_app l m : parts l -> parts m -> parts (l ++ m).
Proof. apply Forall_app_2 || (intros; apply Forall_app; auto). Qed.
Lemma parts3 a b c x y z : 0 <= a -> 0 <= b -> 0 <= c -> 0 <= x -> 0 <= y -> 0 <= z -> parts [(a, x); (b, y); (c, z)].
Proof. intros. repeat apply Forall_cons; try apply Forall_nil; cbn; auto. Qed.
Lemma amount_app l m : amount (l ++ m) = amount l + amount m.
Proof. unfold amount. rewrite map_app. apply total_app. Qed.
Lemma left_app a l m : left_after a (l ++ m) = left_after a l + left_after a m.
Proof. unfold left_after. rewrite map_app. apply total_app. Qed.

Section Sphere.
Variables (nev n : nat) (spot mu : R) (P : params) (D : draws).
Hypothesis (Hn : (0 < nev)%nat) (Hnt : (0 < n)%nat) (Hmu : 0 < mu) (Hb : p_boundary P = sphere) (Hr : p_run P = false) (Hp : plain P) (Hv : valid_params P 1) (Hfd : full_detection P)
  (Hd : 0 < p_thickness P) (Hsp : 0 < spot <= p_thickness P) (Hns : 0 < p_nmedium P <= p_nsample P) (HD : good_draws D).
Let W i := made_walk nev mu D (sp_pos spot P D i) (sp_dir spot P D i) i.
Let v0 i := film_view P (absorbed 0 (W i)).
Let Ls (i k : nat) := Rsum (firstn k (k_steps (W i))).
Let stuck i := i_stuck (event_indices (choose_n_tir P) (p_nmedium P) (p_thickness P) (p_zlow P) (p_boundary P) (absorbed 0 (W i))).
Let pr i := pf1 (choose_n_tir P) (p_nfront P) (p_nmedium P) (v_ar (v0 i)).
Let pt i := pf1 (choose_n_tir P) (p_nback P) (p_nmedium P) (v_at (v0 i)).
Let inc i := v_inc P false (v0 i).
Let ri (i : nat) : list (R * R) := [ (inc i * v_wr (v0 i) * (1 + pr i) / 2 / INR n, Ls i (v_r (v0 i))); (inc i * v_wt (v0 i) * (1 - pt i) / 2 / INR n, Ls i (v_t (v0 i))); (inc i * v_ws (v0 i) / 2 / INR n, Ls i (stuck i)) ].
Let ti (i : nat) : list (R * R) := [ (inc i * v_wt (v0 i) * (1 + pt i) / 2 / INR n, Ls i (v_t (v0 i))); (inc i * v_wr (v0 i) * (1 - pr i) / 2 / INR n, Ls i (v_r (v0 i))); (inc i * v_ws (v0 i) / 2 / INR n, Ls i (stuck i)) ].
Let di i := c_di P false (v0 i) / INR n.

Lemma sphere_answers a : 0 <= a -> exists o, sphere_run nev n spot mu (with_absorption a P) D = Ok (Some o).
Proof.
  intros Ha. pose proof Hp as (Hg & H1 & H2 & Hp1 & Hp2).
  set (D0 := mk_draws (d_l0 D) (d_l1 D) (d_l2 D) (d_l3 D) (d_ang D) (d_u D) (d_rang D) (fun _ _ _ => 0)).
  assert (E0 : sphere_run nev n spot mu (with_absorption a P) D = sphere_run nev n spot mu (with_absorption a P) D0).
  { rewrite !(sp_run nev spot mu (with_absorption a P) Hn Hmu Hd Hsp Hns) by exact HD. apply no_rerun_draws, Hr. }
  assert (Hvn : valid_params (with_absorption a P) n).
  { unfold valid_params, with_absorption in *. cbn [p_boundary p_run p_gonio p_kz0rot p_kz0refl p_nparticle p_nmatrix p_zlow p_thickness p_muabs p_nmedium p_nsample p_nfront p_nback p_detection p_maxdepth p_maxstuck p_fine] in *.
    destruct Hv as (A & B & C & F & G & H & J & K & L). repeat (split; try assumption); intros kr Hkr; congruence. }
  destruct (sphere_run_ok nev n spot mu (with_absorption a P) D0 Hn Hnt Hd Hsp Hmu Ha (proj1 HD) (proj2 HD)) as (o & Eo & _); try assumption.
  { intros. cbn. lra. }
  rewrite <- E0 in Eo. exists o. exact Eo.
Qed.
Lemma wv i : (i < n)%nat -> wview (v0 i).
Proof.
  intros Hi. pose proof Hp as (Hg & _). apply film_view_ok; [exact Hg|]. unfold W. rewrite <- made_absorbed.
  apply (made_ok nev n mu 0 D (fun j => sp_pos spot P D j) (fun j => sp_dir spot P D j)); auto; try lra. apply HD.
Qed.
Lemma bounds0 i : (i < n)%nat -> 0 <= inc i <= 1 /\ 0 <= pr i <= 1 /\ 0 <= pt i <= 1 /\ 0 <= c_di P false (v0 i) <= 1 - inc i.
Proof.
  intros Hi. pose proof Hp as (Hg & H1 & H2 & Hp1 & Hp2). pose proof (valid_good _ _ Hv) as (Gm & Gs & Gt & Gf & Gb & _).
  destruct (sphere_answers 0 (Rle_refl 0)) as (o & Eo). rewrite (sp_run nev spot mu (with_absorption 0 P) Hn Hmu Hd Hsp Hns n D HD) in Eo.
  destruct (answered (with_absorption 0 P) false 21 _ _ 0 _ o Hr Hg H1 H2 Eo) as (_ & B2 & _).
  assert (EV : map (film_view (with_absorption 0 P)) (map (sp_traj nev spot mu (with_absorption 0 P) D) (seq 0 n)) = map v0 (seq 0 n)).
  { rewrite map_map. apply map_ext. intros j. rewrite view_abs. unfold sp_traj. rewrite made_absorbed. reflexivity. }
  rewrite EV in B2. change (bad_angle P false (map v0 (seq 0 n)) = false) in B2.
  assert (Hin : In (v0 i) (map v0 (seq 0 n))) by (apply in_map, in_seq; lia).
  pose proof (inc_range P false _ Gm Gt Gf B2 (v0 i) Hin (wv i Hi)) as I.
  destruct (pass_range P false _ Gm Gt Gf Gb B2 (v0 i) Hin (wv i Hi)) as [A B].
  split; [exact I|]. split; [exact A|]. split; [exact B|]. unfold c_di. fold (inc i) in I |- *.
  destruct (detect1_cases (p_nmedium P) (p_nmedium P) (p_detection P) (v_dia P (v0 i)) (1 - inc i)) as [-> | ->]; lra.
Qed.
Lemma steps_nonneg i k : 0 <= Ls i k.
Proof.
  unfold Ls. change (Rsum (firstn k (k_steps (W i)))) with (total (firstn k (k_steps (W i)))). apply total_nonneg, Forall_forall. intros y Hy.
  assert (Hy' : In y (steps_of nev mu D i)) by (change (k_steps (W i)) with (steps_of nev mu D i) in Hy; rewrite <- (firstn_skipn k); apply in_or_app; now left).
  unfold steps_of in Hy'. apply in_map_iff in Hy'. destruct Hy' as (j & <- & _). apply L_montecarlo.step_nonneg; [lra|apply HD].
Qed.
Lemma one a i : sp_r (with_absorption a P) (film_view (with_absorption a P) (sp_traj nev spot mu (with_absorption a P) D i)) / INR n = di i + left_after a (ri i)
  /\ sp_t (with_absorption a P) (film_view (with_absorption a P) (sp_traj nev spot mu (with_absorption a P) D i)) / INR n = left_after a (ti i).
Proof.
  assert (HI : INR n <> 0) by (apply not_0_INR; lia).
  rewrite view_abs. unfold sp_traj. rewrite made_absorbed. change (p_muabs (with_absorption a P)) with a. change (sp_pos spot (with_absorption a P) D i) with (sp_pos spot P D i). change (sp_dir spot (with_absorption a P) D i) with (sp_dir spot P D i). fold (W i).
  rewrite (view_absorbed P a). rewrite absorb_at. fold (stuck i). fold (v0 i).
  assert (S0 : select_col (repeat 1 (length (k_steps (W i)))) (stuck i) = v_ws (v0 i)).
  { unfold v0, film_view. cbn [v_ws]. fold (stuck i). change (t_w (absorbed 0 (W i))) with (absorb 0 (repeat 1 (length (k_steps (W i)))) (k_steps (W i))). rewrite absorb_at, Rmult_0_l, Ropp_0, exp_0. ring. }
  rewrite S0. unfold left_after, ri, ti, di. cbn [map fst snd fold_right].
  unfold sp_r, sp_t, own_r, own_t, c_rf, c_tf, c_rp, c_tp, c_rw, c_tw, c_sw, c_di, v_dia, v_inc, v_in. cbn [v_wr v_wt v_ws v_ar v_at v_ae v_kz0 v_first].
  cbn [p_boundary with_absorption p_nmedium p_nfront p_nback p_detection p_nsample p_nparticle p_nmatrix].
  change (choose_n_tir (with_absorption a P)) with (choose_n_tir P).
  unfold inc, pr, pt, v_inc, v_in, Ls. rewrite Hb.
  set (i0 := pf1 (p_nmedium P) (p_nfront P) (choose_n_tir P) (nan_to_num (Some (v_ae (v0 i))))).
  split; field; exact HI.
Qed.
Lemma flat (f : nat -> list (R * R)) (g : list (R * R) -> R) l : (forall x y, g (x ++ y) = g x + g y) -> g [] = 0 -> g (flat_map f l) = total (map (fun i => g (f i)) l).
Proof. intros H H0. induction l as [|i l IH]; [exact H0|]. cbn [flat_map map total]. now rewrite H, IH. Qed.

Lemma sphere_sum : exists surface cr ct, 0 <= surface /\ parts cr /\ parts ct /\ surface + amount cr + amount ct <= 1
  /\ lengths_of (drawn_steps nev n mu D) (cr ++ ct)
  /\ forall a, 0 <= a -> exists o, sphere_run nev n spot mu (with_absorption a P) D = Ok (Some o) /\ o_refl o = surface + left_after a cr /\ o_trans o = left_after a ct.
Proof.
  assert (HI : 0 < INR n) by now apply lt_0_INR.
  assert (Hi : 0 < / INR n) by now apply Rinv_0_lt_compat.
  exists (total (map di (seq 0 n))), (flat_map ri (seq 0 n)), (flat_map ti (seq 0 n)).
  assert (X : forall i, In i (seq 0 n) -> 0 <= di i /\ parts (ri i) /\ parts (ti i) /\ di i + amount (ri i) + amount (ti i) <= / INR n).
  { intros i Hin. apply in_seq in Hin. destruct (bounds0 i ltac:(lia)) as (B1 & B2 & B3 & B4). destruct (wv i ltac:(lia)) as (W1 & W2 & W3 & W4 & _).
    pose proof (steps_nonneg i) as SN.
    pose proof (Rmult_le_pos _ _ (proj1 B1) W1) as M1. pose proof (Rmult_le_pos _ _ (proj1 B1) W2) as M2. pose proof (Rmult_le_pos _ _ (proj1 B1) W3) as M3.
    pose proof (Rmult_le_compat_l _ _ _ (proj1 B1) W4) as M4.
    assert (G : forall x y, 0 <= x -> 0 <= y -> 0 <= x * y / 2 / INR n) by (intros x y Hx Hy; unfold Rdiv; pose proof (Rmult_le_pos _ _ Hx Hy); apply Rmult_le_pos; [lra|lra]).
    split; [unfold di, Rdiv; apply Rmult_le_pos; lra|].
    split; [apply parts3; try apply SN; try (apply G; lra); unfold Rdiv; apply Rmult_le_pos; lra|].
    split; [apply parts3; try apply SN; try (apply G; lra); unfold Rdiv; apply Rmult_le_pos; lra|].
    unfold amount, ri, ti, di. cbn [map fst fold_right].
    replace (c_di P false (v0 i) / INR n + _ + _) with ((c_di P false (v0 i) + inc i * (v_wr (v0 i) + v_wt (v0 i) + v_ws (v0 i))) * / INR n) by (field; lra).
    rewrite <- (Rmult_1_l (/ INR n)) at 2. apply Rmult_le_compat_r; lra. }
  split; [apply total_nonneg_map; intros i Hin; apply X; exact Hin|].
  split; [apply Forall_flat_map, Forall_forall; intros i Hin; apply X; exact Hin|].
  split; [apply Forall_flat_map, Forall_forall; intros i Hin; apply X; exact Hin|].
  split.
  { rewrite (flat ri amount), (flat ti amount); try reflexivity; try exact amount_app.
    assert (Q : total (map (fun i => di i + amount (ri i) + amount (ti i)) (seq 0 n)) <= / INR n * INR n).
    { rewrite <- (seq_length n 0) at 3. generalize (seq 0 n) X. intros l Y. induction l as [|i l IH]; [cbn; lra|]. cbn [map total length]. rewrite S_INR.
      specialize (IH (fun j Hj => Y j (or_intror Hj))). destruct (Y i (or_introl eq_refl)) as (_ & _ & _ & Q). lra. }
    rewrite Rinv_l in Q by lra. revert Q. generalize (seq 0 n). intros l. 
    assert (E : total (map (fun i => di i + amount (ri i) + amount (ti i)) l) = total (map di l) + total (map (fun i => amount (ri i)) l) + total (map (fun i => amount (ti i)) l)).
    { induction l as [|i l IH]; [cbn; lra|]. cbn [map total]. rewrite IH. lra. }
    rewrite E. auto. }
  split.
  { assert (In1 : forall i, In i (seq 0 n) -> In (k_steps (W i)) (drawn_steps nev n mu D)).
    { intros i Hin. rewrite <- (made_steps nev mu D (sp_pos spot P D) (sp_dir spot P D) n). apply in_map_iff. exists (W i). split; [reflexivity|]. apply in_map_iff. exists i. auto. }
    apply Forall_app; split; apply Forall_flat_map, Forall_forall; intros i Hin; repeat apply Forall_cons; try apply Forall_nil; cbn [snd]; exists (k_steps (W i)); eexists; (split; [now apply In1|reflexivity]). }
  intros a Ha. destruct (sphere_answers a Ha) as (o & Eo). exists o. split; [exact Eo|].
  assert (Hp' : plain (with_absorption a P)) by exact Hp. 
  destruct (sp_split nev spot mu (with_absorption a P) Hn Hmu Ha Hd Hsp Hb Hr Hp Hfd Hns Hv n D Hnt HD) as [E1 E2].
  rewrite Eo in E1, E2. cbn [refl_of trans_of] in E1, E2. rewrite E1, E2.
  rewrite (flat ri (left_after a)), (flat ti (left_after a)); try reflexivity; try (intros; apply left_app).
  assert (S : forall (f : nat -> R) l, total (map f l) / INR n = total (map (fun i => f i / INR n) l)).
  { intros f l. induction l as [|i l IH]; [cbn; unfold Rdiv; ring|]. cbn [map total]. rewrite <- IH. unfold Rdiv. ring. }
  rewrite !S. split.
  - rewrite (map_ext _ (fun i => di i + left_after a (ri i))) by (intros i; apply one).
    generalize (seq 0 n). intros l. induction l as [|i l IH]; [cbn; lra|]. cbn [map total]. rewrite IH. lra.
  - rewrite (map_ext _ (fun i => left_after a (ti i))) by (intros i; apply one). reflexivity.
Qed.
End Sphere.

(** C178.  For a run on a sphere (all exiting light detected, no re-runs) the
    light is a surface reflection, and parts that reach the front or the back,
    each with the length of its path, such that for EVERY absorption coefficient
    a the reflectance and the transmittance are what exp (- a * length) leaves of
    these parts. *)
Theorem C178_path_lengths : forall nevents ntraj spot mu_scat P D,
  (0 < nevents)%nat -> (0 < ntraj)%nat -> 0 < mu_scat -> p_boundary P = sphere -> p_run P = false -> plain P -> valid_params P 1 -> full_detection P ->
  0 < p_thickness P -> 0 < spot <= p_thickness P -> 0 < p_nmedium P <= p_nsample P -> good_draws D ->
  exists surface reflected transmitted,
    0 <= surface /\ parts reflected /\ parts transmitted /\ surface + amount reflected + amount transmitted <= 1
    /\ lengths_of (drawn_steps nevents ntraj mu_scat D) (reflected ++ transmitted)
    /\ forall a, 0 <= a -> exists o, sphere_run nevents ntraj spot mu_scat (with_absorption a P) D = Ok (Some o)
         /\ o_refl o = surface + left_after a reflected /\ o_trans o = left_after a transmitted.
Proof. exact sphere_sum. Qed.
Print Assumptions C178_path_lengths.

Lemma left_mono a b l : parts l -> a <= b -> left_after b l <= left_after a l.
Proof.
  intros H Hab. unfold left_after. induction H as [|p l [A B] _ IH]; [cbn; lra|]. cbn [map fold_right].
  apply Rplus_le_compat; [|exact IH]. apply Rmult_le_compat_l; [exact A|]. apply exp_le_mono. apply Ropp_le_contravar, Rmult_le_compat_r; [exact B|exact Hab].
Qed.
Lemma exp_convex x y t : 0 <= t <= 1 -> exp ((1 - t) * x + t * y) <= (1 - t) * exp x + t * exp y.
Proof.
  intros Ht. set (m := (1 - t) * x + t * y).
  assert (T : forall z, exp m * (1 + (z - m)) <= exp z).
  { intros z. replace (exp z) with (exp m * exp (z - m)) by (rewrite <- exp_plus; f_equal; ring). apply Rmult_le_compat_l; [left; apply exp_pos|apply exp_ineq1_le]. }
  pose proof (Rmult_le_compat_l (1 - t) _ _ ltac:(lra) (T x)) as A. pose proof (Rmult_le_compat_l t _ _ (proj1 Ht) (T y)) as B.
  replace (exp m) with ((1 - t) * (exp m * (1 + (x - m))) + t * (exp m * (1 + (y - m)))); [lra|]. unfold m. ring.
Qed.
Lemma left_convex a b t l : parts l -> 0 <= t <= 1 -> left_after ((1 - t) * a + t * b) l <= (1 - t) * left_after a l + t * left_after b l.
Proof.
  intros H Ht. unfold left_after. induction H as [|p l [A B] _ IH]; [cbn; lra|]. cbn [map fold_right].
  pose proof (exp_convex (- (a * snd p)) (- (b * snd p)) t Ht) as C. replace ((1 - t) * - (a * snd p) + t * - (b * snd p)) with (- (((1 - t) * a + t * b) * snd p)) in C by ring.
  pose proof (Rmult_le_compat_l _ _ _ A C). lra.
Qed.

(** Hence both fall with the absorption, and ever more slowly. *)
Theorem C178_shape : forall nevents ntraj spot mu_scat P D a b t,
  (0 < nevents)%nat -> (0 < ntraj)%nat -> 0 < mu_scat -> p_boundary P = sphere -> p_run P = false -> plain P -> valid_params P 1 -> full_detection P ->
  0 < p_thickness P -> 0 < spot <= p_thickness P -> 0 < p_nmedium P <= p_nsample P -> good_draws D -> 0 <= a <= b -> 0 <= t <= 1 ->
  let run c := sphere_run nevents ntraj spot mu_scat (with_absorption c P) D in
  refl_of (run b) <= refl_of (run a) /\ trans_of (run b) <= trans_of (run a)
  /\ refl_of (run ((1 - t) * a + t * b)) <= (1 - t) * refl_of (run a) + t * refl_of (run b)
  /\ trans_of (run ((1 - t) * a + t * b)) <= (1 - t) * trans_of (run a) + t * trans_of (run b).
Proof.
  intros nev n spot mu P D a b t H1 H2 H3 H4 H5 H6 H7 H8 H9 H10 H11 H12 Hab Ht run.
  destruct (C178_path_lengths nev n spot mu P D H1 H2 H3 H4 H5 H6 H7 H8 H9 H10 H11 H12) as (s & cr & ct & _ & Pr & Pt & _ & _ & H).
  assert (Hc : 0 <= (1 - t) * a + t * b) by nra.
  unfold run. destruct (H a ltac:(lra)) as (oa & -> & Ra & Ta). destruct (H b ltac:(lra)) as (ob & -> & Rb & Tb). destruct (H _ Hc) as (oc & -> & Rc & Tc).
  cbn [refl_of trans_of]. rewrite Ra, Rb, Rc, Ta, Tb, Tc.
  pose proof (left_mono a b cr Pr (proj2 Hab)). pose proof (left_mono a b ct Pt (proj2 Hab)). pose proof (left_convex a b t cr Pr Ht). pose proof (left_convex a b t ct Pt Ht). lra.
Qed.
Print Assumptions C178_shape.

(** Nor do they fall faster than the longest path m allows:
    R(b) >= R(a) exp (- (b - a) m). *)
Theorem C178_not_too_fast : forall nevents ntraj spot mu_scat P D a b m,
  (0 < nevents)%nat -> (0 < ntraj)%nat -> 0 < mu_scat -> p_boundary P = sphere -> p_run P = false -> plain P -> valid_params P 1 -> full_detection P ->
  0 < p_thickness P -> 0 < spot <= p_thickness P -> 0 < p_nmedium P <= p_nsample P -> good_draws D -> 0 <= a <= b ->
  (forall s, In s (drawn_steps nevents ntraj mu_scat D) -> forall k, fold_right Rplus 0 (firstn k s) <= m) ->
  let run c := sphere_run nevents ntraj spot mu_scat (with_absorption c P) D in
  refl_of (run a) * exp (- ((b - a) * m)) <= refl_of (run b) /\ trans_of (run a) * exp (- ((b - a) * m)) <= trans_of (run b).
Proof.
  intros nev n spot mu P D a b m H1 H2 H3 H4 H5 H6 H7 H8 H9 H10 H11 H12 Hab Hm run.
  destruct (C178_path_lengths nev n spot mu P D H1 H2 H3 H4 H5 H6 H7 H8 H9 H10 H11 H12) as (s & cr & ct & Hs & Pr & Pt & _ & L & H).
  unfold run. destruct (H a ltac:(lra)) as (oa & -> & Ra & Ta). destruct (H b ltac:(lra)) as (ob & -> & Rb & Tb).
  cbn [refl_of trans_of]. rewrite Ra, Rb, Ta, Tb.
  apply Forall_app in L as [Lr Lt].
  assert (Q : forall l, parts l -> lengths_of (drawn_steps nev n mu D) l -> left_after a l * exp (- ((b - a) * m)) <= left_after b l).
  { intros l Pl Ll. unfold left_after. induction Pl as [|p l [A B] _ IH]; [cbn; lra|]. apply Forall_cons_iff in Ll as [(st & k & I & E) Ll]. cbn [map fold_right]. specialize (IH Ll).
    assert (X : exp (- (a * snd p)) * exp (- ((b - a) * m)) <= exp (- (b * snd p))).
    { rewrite <- exp_plus. apply exp_le_mono. rewrite E. pose proof (Hm st I k). nra. }
    pose proof (Rmult_le_compat_l _ _ _ A X). lra. }
  pose proof (Q cr Pr Lr) as Q1. pose proof (Q ct Pt Lt) as Q2.
  assert (Em : 0 <= m).
  { assert (I : In (steps_of nev mu D 0) (drawn_steps nev n mu D)) by (unfold drawn_steps; apply in_map_iff; exists 0%nat; split; [reflexivity|apply in_seq; lia]). exact (Hm _ I 0%nat). }
  assert (E1 : exp (- ((b - a) * m)) <= 1) by (rewrite <- exp_0; apply exp_le_mono; nra).
  split; [|exact Q2]. rewrite Rmult_plus_distr_r. assert (s * exp (- ((b - a) * m)) <= s) by (rewrite <- (Rmult_1_r s) at 2; now apply Rmult_le_compat_l). lra.
Qed.
Print Assumptions C178_not_too_fast.

(** On a film the light let through by its front and by its back before anything
    is redistributed obeys the same law. *)
Theorem C178_film : forall nevents ntraj spot tmin tmax pmin pmax mu_scat P D,
  (0 < nevents)%nat -> (0 < ntraj)%nat -> 0 < mu_scat -> plain_film P -> (forall n i, 0 <= d_u D n i < 1) ->
  exists front back, parts front /\ parts back /\ amount front + amount back <= 1
    /\ lengths_of (drawn_steps nevents ntraj mu_scat D) (front ++ back)
    /\ forall a, 0 <= a -> let run := film_run nevents ntraj spot tmin tmax pmin pmax mu_scat (with_absorption a P) D in
         front_of run = left_after a front /\ back_of run = left_after a back.
Proof.
  intros nev n spot tmin tmax pmin pmax mu P D Hn Hnt Hmu HP Hu. assert (HI : 0 < INR n) by now apply lt_0_INR.
  assert (Hi : 0 < / INR n) by now apply Rinv_0_lt_compat.
  assert (Q : forall x, 0 <= x -> plain_film (with_absorption x P)) by (intros x Hx; now apply plain_abs).
  set (W := fun i => made_walk nev mu D (fl_pos spot D i) (fl_dir tmin tmax pmin pmax P D i) i).
  set (v0 := fun i => film_view P (absorbed 0 (W i))).
  set (L := fun i k => Rsum (firstn k (k_steps (W i)))).
  exists (map (fun i => (c_rp P false (v0 i) / INR n, L i (v_r (v0 i)))) (seq 0 n)), (map (fun i => (c_tp P false (v0 i) / INR n, L i (v_t (v0 i)))) (seq 0 n)).
  destruct (fl_views nev spot tmin tmax pmin pmax mu (with_absorption 0 P) Hn Hmu (Q 0 (Rle_refl 0)) n D _ Hu eq_refl) as (V1 & V2 & V3 & _).
  assert (EV : map (film_view (with_absorption 0 P)) (map (fl_traj nev spot tmin tmax pmin pmax mu (with_absorption 0 P) D) (seq 0 n)) = map v0 (seq 0 n)).
  { rewrite map_map. apply map_ext. intros i. rewrite view_abs, traj_abs. reflexivity. }
  rewrite EV in V1, V3. change (bad_angle P false (map v0 (seq 0 n)) = false) in V3.
  pose proof (fl_nt P HP) as Ent. pose proof HP as (Hb & Hr & Hg & Hk1 & Hk2 & Hp & Hz & Hth & Ha & Hm & Hf & Hbk).
  assert (Gt : 0 < choose_n_tir P) by lra.
  assert (SN : forall i k, 0 <= L i k).
  { intros i k. unfold L. change (Rsum (firstn k (k_steps (W i)))) with (total (firstn k (k_steps (W i)))). apply total_nonneg, Forall_forall. intros y Hy.
    assert (Hy' : In y (steps_of nev mu D i)) by (change (k_steps (W i)) with (steps_of nev mu D i) in Hy; rewrite <- (firstn_skipn k); apply in_or_app; now left).
    unfold steps_of in Hy'. apply in_map_iff in Hy'. destruct Hy' as (j & <- & _). apply L_montecarlo.step_nonneg; [lra|apply Hu]. }
  assert (X : forall i, In i (seq 0 n) -> 0 <= c_rp P false (v0 i) /\ 0 <= c_tp P false (v0 i) /\ c_rp P false (v0 i) + c_tp P false (v0 i) <= 1).
  { intros i Hin. assert (In0 : In (v0 i) (map v0 (seq 0 n))) by now apply in_map.
    destruct (c_range P false _ (proj1 Hm) Gt Hf Hbk V3 (v0 i) In0 (V1 _ In0)) as (R1 & R2 & R3 & R4 & R5 & R6 & _).
    pose proof (inc_range P false _ (proj1 Hm) Gt Hf V3 (v0 i) In0 (V1 _ In0)) as I. unfold c_rf, c_tf, c_ab in *. lra. }
  assert (In1 : forall i, In i (seq 0 n) -> In (k_steps (W i)) (drawn_steps nev n mu D)).
  { intros i Hin. rewrite <- (made_steps nev mu D (fl_pos spot D) (fl_dir tmin tmax pmin pmax P D) n). apply in_map_iff. exists (W i). split; [reflexivity|]. apply in_map_iff. exists i. auto. }
  split; [apply Forall_map, Forall_forall; intros i Hin; cbn [fst snd]; split; [unfold Rdiv; apply Rmult_le_pos; [apply X; exact Hin|lra]|apply SN]|].
  split; [apply Forall_map, Forall_forall; intros i Hin; cbn [fst snd]; split; [unfold Rdiv; apply Rmult_le_pos; [apply X; exact Hin|lra]|apply SN]|].
  split.
  { unfold amount. rewrite !map_map. cbn [fst]. change (fold_right Rplus 0) with total.
    assert (G : forall l, (forall i, In i l -> In i (seq 0 n)) -> total (map (fun i => c_rp P false (v0 i) / INR n) l) + total (map (fun i => c_tp P false (v0 i) / INR n) l) <= / INR n * INR (length l)).
    { induction l as [|i l IH]; intros Y; [cbn; lra|]. cbn [map total length]. rewrite S_INR. specialize (IH (fun j Hj => Y j (or_intror Hj))).
      destruct (X i (Y i (or_introl eq_refl))) as (_ & _ & X3). pose proof (Rmult_le_compat_r _ _ _ (Rlt_le _ _ Hi) X3). unfold Rdiv in *. lra. }
    pose proof (G (seq 0 n) (fun i H => H)) as G'. rewrite seq_length, Rinv_l in G' by lra. exact G'. }
  split; [apply Forall_app; split; apply Forall_map, Forall_forall; intros i Hin; cbn [snd]; exists (k_steps (W i)); eexists; (split; [now apply In1|reflexivity])|].
  intros a Hxa run. destruct (fl_split nev spot tmin tmax pmin pmax mu (with_absorption a P) Hn Hmu (Q a Hxa) n D Hnt Hu) as [E1 E2].
  unfold run. rewrite E1, E2. unfold left_after. rewrite !map_map. cbn [fst snd]. change (fold_right Rplus 0) with total.
  assert (S : forall (f : nat -> R) l, total (map f l) / INR n = total (map (fun i => f i / INR n) l)).
  { intros f l. induction l as [|i l IH]; [cbn; unfold Rdiv; ring|]. cbn [map total]. rewrite <- IH. unfold Rdiv. ring. }
  rewrite !S. split; apply (f_equal total), map_ext; intros i.
  - rewrite rp_abs, view_abs, traj_abs. fold (W i). rewrite (view_absorbed P a). fold (v0 i). unfold c_rp, c_rw, L. cbn [v_wr v_ar].
    change (v_inc P false (mk_view _ _ _ _ _ _ _ _ _ _)) with (v_inc P false (v0 i)). field. lra.
  - rewrite tp_abs, view_abs, traj_abs. fold (W i). rewrite (view_absorbed P a). fold (v0 i). unfold c_tp, c_tw, L. cbn [v_wt v_at].
    change (v_inc P false (mk_view _ _ _ _ _ _ _ _ _ _)) with (v_inc P false (v0 i)). field. lra.
Qed.
Print Assumptions C178_film.

Example C178_case : forall a, 0 <= a ->
  let run c := sphere_run 20 100 10 (1 / 10) (with_absorption c glass_sphere) even_draws in
  refl_of (run (a / 2)) <= (refl_of (run 0) + refl_of (run a)) / 2.
Proof.
  intros a Ha run. pose proof PI_RGT_0 as HPI.
  destruct (C178_shape 20 100 10 (1 / 10) glass_sphere even_draws 0 a (1 / 2)) as (_ & _ & C & _); try lia; try lra; try reflexivity.
  - repeat split; reflexivity.
  - unfold valid_params, glass_sphere. cbn. repeat split; try lra; try congruence; try (intros; discriminate).
  - cbn. lra.
  - cbn. lra.
  - cbn. lra.
  - split; intros; cbn; lra.
  - cbv zeta in C. fold (run 0) (run a) in C. replace ((1 - 1 / 2) * 0 + 1 / 2 * a) with (a / 2) in C by field. fold (run (a / 2)) in C. lra.
Qed.
