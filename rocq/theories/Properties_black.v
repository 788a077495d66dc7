(** C177: a strongly absorbing film reflects only its surface. *)
From Coq Require Import Lra Lia Psatz Reals List Bool.
From Verif Require Import Num Spec Spec_detector Spec_direct Spec_meta Spec_estimate Spec_pathlaw Spec_oblique Spec_coverslip M_init M_montecarlo M_detector M_event_distribution M_simulation
  L_num L_init L_weights L_outcomes L_exits L_meta L_meta3 L_meta4 L_local L_rough L_direct L_estimate L_pathlaw L_fresnel L_oblique
  Properties_init Properties_detector Properties_meta Properties_coverslip Properties_pathlaw Properties_surface L_simulation.
Import ListNotations.
Open Scope R_scope.

Section Film.
Variables (P : params) (v : list view).
Hypothesis (Gm : 0 < p_nmedium P) (Gt : 0 < choose_n_tir P) (Gf : forall m, p_nfront P = Some m -> 0 < m) (Gb : forall m, p_nback P = Some m -> 0 < m).
Hypothesis (B2 : bad_angle P false v = false) (Hw : forall a, In a v -> wview a).

Lemma ratio_le1 x y : x <= y -> 0 <= Rmax x EPS / Rmax y EPS <= 1.
Proof.
  intros H. assert (He : 0 < EPS) by exact EPS_pos. split; [apply frac_nonneg|].
  assert (Q : 0 < Rmax y EPS) by (eapply Rlt_le_trans; [exact He|apply Rmax_r]).
  apply (Rmult_le_reg_r (Rmax y EPS)); [exact Q|]. unfold Rdiv. rewrite Rmult_assoc, Rinv_l, Rmult_1_r, Rmult_1_l by lra.
  apply Rle_max_compat_r. exact H.
Qed.
Lemma share_le1 x k : 0 <= x <= k -> 0 <= x / k <= 1.
Proof.
  intros H. destruct (Rle_lt_or_eq_dec 0 k ltac:(lra)) as [K|K].
  - split; [apply Rmult_le_pos; [lra|left; now apply Rinv_0_lt_compat]|]. apply (Rmult_le_reg_r k); [exact K|]. unfold Rdiv. rewrite Rmult_assoc, Rinv_l by lra. lra.
  - rewrite <- K. unfold Rdiv. rewrite Rinv_0. lra.
Qed.

(** Beyond the light turned back on entry, a trajectory contributes at most the
    weight it still has at its end. *)
Lemma share_bound a : In a v -> let u := v_wr a + v_wt a + v_ws a in
  0 <= c_dr P false a + c_er P false v a * c_rdf P false v <= u /\ 0 <= c_dt P false a + c_et P false v a * c_tdf P false v <= u.
Proof.
  intros Hin u.
  assert (Rp : forall b, In b v -> 0 <= c_rp P false b) by (intros b Hb'; apply (c_range P false v Gm Gt Gf Gb B2 b Hb' (Hw b Hb'))).
  assert (Tp : forall b, In b v -> 0 <= c_tp P false b) by (intros b Hb'; apply (c_range P false v Gm Gt Gf Gb B2 b Hb' (Hw b Hb'))).
  assert (Ab : forall b, In b v -> 0 <= c_ab P false b) by (intros b Hb'; apply (c_range P false v Gm Gt Gf Gb B2 b Hb' (Hw b Hb'))).
  assert (Dr : forall b, In b v -> 0 <= c_dr P false b <= c_rp P false b).
  { intros b Hb'. pose proof (Rp b Hb'). unfold c_dr. destruct (detect1_cases (Rabs (p_nsample P)) (p_nmedium P) (p_detection P) (v_ar b) (c_rp P false b)) as [-> | ->]; lra. }
  assert (Dt : forall b, In b v -> 0 <= c_dt P false b <= c_tp P false b).
  { intros b Hb'. pose proof (Tp b Hb'). unfold c_dt. destruct (detect1_cases (Rabs (p_nsample P)) (p_nmedium P) (p_detection P) (v_at b) (c_tp P false b)) as [-> | ->]; lra. }
  assert (F1 : 0 <= c_rdf P false v <= 1) by (apply ratio_le1, total_le_map; intros b Hb'; apply Dr; exact Hb').
  assert (F2 : 0 <= c_tdf P false v <= 1) by (apply ratio_le1, total_le_map; intros b Hb'; apply Dt; exact Hb').
  assert (S1 : 0 <= c_rfrac P false v <= 1).
  { apply share_le1. split; [apply total_nonneg_map; exact Rp|]. unfold c_known. apply total_le_map. intros b Hb'. pose proof (Tp b Hb'). pose proof (Ab b Hb'). lra. }
  assert (S2 : 0 <= c_tfrac P false v <= 1).
  { apply share_le1. split; [apply total_nonneg_map; exact Tp|]. unfold c_known. apply total_le_map. intros b Hb'. pose proof (Rp b Hb'). pose proof (Ab b Hb'). lra. }
  destruct (c_range P false v Gm Gt Gf Gb B2 a Hin (Hw a Hin)) as (R1 & R2 & R3 & R4 & R5 & _). pose proof (Dr a Hin) as D1. pose proof (Dt a Hin) as D2.
  pose proof (inc_range P false v Gm Gt Gf B2 a Hin (Hw a Hin)) as I. destruct (Hw a Hin) as (W1 & W2 & W3 & W4 & _).
  assert (E1 : 0 <= c_er P false v a <= c_rf P false a + c_tf P false a + c_sw P false a) by (unfold c_er; destruct (p_boundary P); nra).
  assert (E2 : 0 <= c_et P false v a <= c_rf P false a + c_tf P false a + c_sw P false a) by (unfold c_et; destruct (p_boundary P); nra).
  assert (T : c_rp P false a + c_tp P false a + c_rf P false a + c_tf P false a + c_sw P false a <= u).
  { replace (c_rp P false a + c_tp P false a + c_rf P false a + c_tf P false a + c_sw P false a) with (v_inc P false a * u) by (unfold c_rf, c_tf, c_rw, c_tw, c_sw, u; ring).
    assert (U : 0 <= u) by (unfold u; lra). pose proof (Rmult_le_compat_r u _ _ U (proj2 I)). lra. }
  pose proof (Rmult_le_pos _ _ (proj1 E1) (proj1 F1)). pose proof (Rmult_le_pos _ _ (proj1 E2) (proj1 F2)).
  assert (X1 : c_er P false v a * c_rdf P false v <= c_er P false v a) by (rewrite <- (Rmult_1_r (c_er P false v a)) at 2; apply Rmult_le_compat_l; lra).
  assert (X2 : c_et P false v a * c_tdf P false v <= c_et P false v a) by (rewrite <- (Rmult_1_r (c_et P false v a)) at 2; apply Rmult_le_compat_l; lra).
  split; lra.
Qed.

Lemma total_scaled_le {A} (f g : A -> R) (c n : R) l : 0 < n -> (forall a, In a l -> 0 <= f a <= c) -> 
  0 <= total (map (fun a => (f a + g a) / n) l) - total (map (fun a => g a / n) l) <= c * INR (length l) / n.
Proof.
  intros Hn. assert (Hi : 0 < / n) by now apply Rinv_0_lt_compat. unfold Rdiv.
  induction l as [|a l IH]; intros H; [cbn; lra|]. cbn [length map total]. rewrite S_INR. specialize (IH (fun x Hx => H x (or_intror Hx))). pose proof (H a (or_introl eq_refl)) as [Ha Hb'].
  pose proof (Rmult_le_pos _ _ Ha (Rlt_le _ _ Hi)). pose proof (Rmult_le_compat_r _ _ _ (Rlt_le _ _ Hi) Hb').
  replace (c * (INR (length l) + 1) * / n) with (c * INR (length l) * / n + c * / n) by ring. lra.
Qed.
Lemma film_bounds e : (0 < length v)%nat -> (forall a, In a v -> v_wr a + v_wt a + v_ws a <= e) ->
  let s := total (map (fun a => c_di P false a / INR (length v)) v) in
  s <= c_R P false v <= s + e /\ 0 <= c_T P false v <= e.
Proof.
  intros Hl He s. assert (Hn : 0 < INR (length v)) by now apply lt_0_INR.
  pose proof (total_scaled_le (fun a => c_dr P false a + c_er P false v a * c_rdf P false v) (c_di P false) e (INR (length v)) v Hn) as Q.
  pose proof (total_scaled_le (fun a => c_dt P false a + c_et P false v a * c_tdf P false v) (fun _ => 0) e (INR (length v)) v Hn) as Q'.
  assert (Z : total (map (fun _ : view => 0 / INR (length v)) v) = 0).
  { generalize (INR (length v)). intros q. clear. induction v as [|a l IH]; [reflexivity|]. cbn [map total]. rewrite IH. unfold Rdiv. ring. }
  cbv beta in Q, Q'. rewrite Z in Q'. replace (e * INR (length v) / INR (length v)) with e in Q, Q' by (field; lra).
  rewrite (map_ext (fun a => (c_dt P false a + c_et P false v a * c_tdf P false v + 0) / INR (length v)) (fun a => (c_dt P false a + c_et P false v a * c_tdf P false v) / INR (length v))) in Q' by (intros; now rewrite Rplus_0_r).
  fold (c_R P false v) in Q. fold (c_T P false v) in Q'. fold s in Q.
  destruct Q as [Q1 Q2]; [intros a Ha; destruct (share_bound a Ha) as [B _]; pose proof (He a Ha); lra|].
  destruct Q' as [Q3 Q4]; [intros a Ha; destruct (share_bound a Ha) as [_ B]; pose proof (He a Ha); lra|]. lra.
Qed.
End Film.

(** The weight left at the end of a walk whose first step is at least l. *)
Lemma exp_le_mono x y : x <= y -> exp x <= exp y.
Proof. intros [H|H]; [left; now apply exp_increasing|rewrite H; lra]. Qed.
Lemma sum_first s l n : (forall x, In x s -> 0 <= x) -> (0 < length s)%nat -> l <= nth 0 s 0 -> (0 < n)%nat -> l <= Rsum (firstn n s).
Proof.
  intros H H0 Hl Hn. destruct n as [|n]; [lia|]. destruct s as [|x s]; [cbn in H0; lia|]. cbn [firstn nth] in *. change (Rsum (x :: firstn n s)) with (x + Rsum (firstn n s)).
  assert (Q : 0 <= Rsum (firstn n s)); [|lra]. change (Rsum (firstn n s)) with (total (firstn n s)). apply total_nonneg, Forall_forall. intros y Hy. apply H. right. rewrite <- (firstn_skipn n). apply in_or_app. now left.
Qed.
Lemma left_over P a w l : (forall x, In x (k_steps w) -> 0 <= x) -> (0 < length (k_steps w))%nat -> l <= nth 0 (k_steps w) 0 -> 0 <= a ->
  wview (film_view P (absorbed 0 w)) ->
  let u := film_view P (absorbed a w) in v_wr u + v_wt u + v_ws u <= exp (- (a * l)).
Proof.
  intros H H0 Hl Ha (W1 & W2 & W3 & W4 & _) u.
  assert (G : forall n, 0 <= select_col (absorb 0 (repeat 1 (length (k_steps w))) (k_steps w)) n ->
     select_col (absorb a (repeat 1 (length (k_steps w))) (k_steps w)) n <= select_col (absorb 0 (repeat 1 (length (k_steps w))) (k_steps w)) n * exp (- (a * l))).
  { intros n Hp. rewrite !absorb_at in *. rewrite Rmult_0_l, Ropp_0, exp_0, Rmult_1_r in *. destruct n as [|n]; [cbn [select_col]; lra|].
    apply Rmult_le_compat_l; [exact Hp|]. apply exp_le_mono. apply Ropp_le_contravar, Rmult_le_compat_l; [exact Ha|]. apply sum_first; auto. lia. }
  unfold u. unfold film_view in *. cbn [v_wr v_wt v_ws] in *. change (event_indices (choose_n_tir P) (p_nmedium P) (p_thickness P) (p_zlow P) (p_boundary P) (absorbed a w)) with (event_indices (choose_n_tir P) (p_nmedium P) (p_thickness P) (p_zlow P) (p_boundary P) (absorbed 0 w)).
  set (ev := event_indices _ _ _ _ _ _) in *. change (t_w (absorbed 0 w)) with (absorb 0 (repeat 1 (length (k_steps w))) (k_steps w)) in *. change (t_w (absorbed a w)) with (absorb a (repeat 1 (length (k_steps w))) (k_steps w)).
  pose proof (G _ W1). pose proof (G _ W2). pose proof (G _ W3). pose proof (exp_pos (- (a * l))). nra.
Qed.

Section Run.
Variables (nev n : nat) (spot tmin tmax pmin pmax mu : R) (P : params) (D : draws) (l : R).
Hypothesis (Hn : (0 < nev)%nat) (Hnt : (0 < n)%nat) (Hmu : 0 < mu) (HP : plain_film P) (Hu : forall n i, 0 <= d_u D n i < 1).
Hypothesis (Hl : forall i, (i < n)%nat -> l <= - ln (1 - d_u D 0 i) / mu).
Lemma plain_abs x : 0 <= x -> plain_film (with_absorption x P).
Proof.
  intros Hx. unfold plain_film, with_absorption in *. cbn [p_boundary p_run p_gonio p_kz0rot p_kz0refl p_nparticle p_zlow p_thickness p_muabs p_nmedium p_nsample p_nfront p_nback]. tauto.
Qed.
Let W i := made_walk nev mu D (fl_pos spot D i) (fl_dir tmin tmax pmin pmax P D i) i.
Let V a := map (fun i => film_view P (absorbed a (W i))) (seq 0 n).
Lemma view_of a : map (film_view (with_absorption a P)) (map (fl_traj nev spot tmin tmax pmin pmax mu (with_absorption a P) D) (seq 0 n)) = V a.
Proof. rewrite map_map. apply map_ext. intros i. rewrite view_abs, traj_abs. reflexivity. Qed.
Lemma black_views a : 0 <= a -> (forall x, In x (V a) -> wview x) /\ bad_in P false (V a) = false /\ bad_angle P false (V a) = false
  /\ forall x, In x (V a) -> v_wr x + v_wt x + v_ws x <= exp (- (a * l)).
Proof.
  intros Ha. destruct (fl_views nev spot tmin tmax pmin pmax mu (with_absorption a P) Hn Hmu (plain_abs a Ha) n D _ Hu eq_refl) as (V1 & V2 & V3 & _).
  destruct (fl_views nev spot tmin tmax pmin pmax mu (with_absorption 0 P) Hn Hmu (plain_abs 0 (Rle_refl 0)) n D _ Hu eq_refl) as (Z1 & _).
  rewrite view_of in V1, V2, V3, Z1. split; [exact V1|]. split; [exact V2|]. split; [exact V3|].
  intros x Hx. apply in_map_iff in Hx as (i & <- & Hi).
  assert (S0 : forall y, In y (k_steps (W i)) -> 0 <= y).
  { intros y Hy. change (k_steps (W i)) with (steps_of nev mu D i) in Hy. unfold steps_of in Hy. apply in_map_iff in Hy. destruct Hy as (j & <- & _). apply L_montecarlo.step_nonneg; [lra|apply Hu]. }
  assert (L0 : (0 < length (k_steps (W i)))%nat) by (change (k_steps (W i)) with (steps_of nev mu D i); unfold steps_of; now rewrite map_length, seq_length).
  apply (left_over P a (W i) l S0 L0); [|exact Ha|].
  - change (k_steps (W i)) with (steps_of nev mu D i). unfold steps_of. rewrite (nth_map_in _ _ _ 0%nat) by (now rewrite seq_length). rewrite seq_nth by exact Hn. apply Hl. apply in_seq in Hi. lia.
  - apply Z1. unfold V. apply in_map_iff. exists i. auto.
Qed.
Lemma black_run a o : 0 <= a -> film_run nev n spot tmin tmax pmin pmax mu (with_absorption a P) D = Ok (Some o) ->
  let s := total (o_inc_refl o) in
  s = total (map (fun x => c_di P false x / INR (length (V a))) (V a)) /\ s <= o_refl o <= s + exp (- (a * l)) /\ 0 <= o_trans o <= exp (- (a * l)).
Proof.
  intros Ha H s. rewrite (fl_run nev spot tmin tmax pmin pmax mu (with_absorption a P) Hn Hmu (plain_abs a Ha)) in H.
  pose proof (fl_nt P HP) as Ent. pose proof (plain_abs a Ha) as HPa.
  destruct (black_views a Ha) as (V1 & V2 & V3 & V4).
  destruct HP as (Hb & Hr & Hg & Hk1 & Hk2 & Hp & Hz & Hth & Hma & Hm & Hf & Hbk).
  destruct (answered (with_absorption a P) false 21 _ _ 0 _ o Hr Hg Hk1 Hk2 H) as (_ & _ & _ & ER & ET). rewrite view_of in ER, ET.
  rewrite crt_view, view_of in H by assumption. destruct (view_all (with_absorption a P) _ o Hk1 Hk2 H) as (_ & _ & EI).
  assert (Hs : s = total (map (fun x => c_di P false x / INR (length (V a))) (V a))) by (unfold s; rewrite EI; reflexivity).
  split; [exact Hs|]. rewrite Hs, ER, ET.
  change (c_R (with_absorption a P) false (V a)) with (c_R P false (V a)). change (c_T (with_absorption a P) false (V a)) with (c_T P false (V a)).
  apply film_bounds; auto; try lra. unfold V. now rewrite map_length, seq_length.
Qed.

(** Light that enters and can be absorbed makes the run answer. *)
Lemma black_answers a : 0 < a -> 0 < l -> (forall x, In x (V a) -> 0 < v_inc P false x) ->
  exists o, film_run nev n spot tmin tmax pmin pmax mu (with_absorption a P) D = Ok (Some o).
Proof.
  intros Ha Hl0 Hi. apply fl_answers; auto; [apply plain_abs; lra|].
  destruct (black_views a ltac:(lra)) as (V1 & V2 & V3 & V4).
  rewrite (map_ext _ (fun i => film_view P (absorbed a (W i)))) by (intros i; rewrite view_abs, traj_abs; reflexivity). fold (V a).
  change (bad_known (with_absorption a P) false (V a)) with (bad_known P false (V a)).
  pose proof (fl_nt P HP) as Ent.
  destruct HP as (Hb & Hr & Hg & Hk1 & Hk2 & Hp & Hz & Hth & Hma & Hm & Hf & Hbk).
  unfold bad_known. rewrite Hb. apply Reqb_false.
  assert (E1 : exp (- (a * l)) < 1) by (rewrite <- exp_0; apply exp_increasing; nra).
  assert (K : forall x, In x (V a) -> 0 < c_ab P false x + c_rp P false x + c_tp P false x).
  { intros x Hx. assert (Gt : 0 < choose_n_tir P) by lra. destruct (c_range P false (V a) (proj1 Hm) Gt Hf Hbk V3 x Hx (V1 x Hx)) as (R1 & R2 & _).
    pose proof (V4 x Hx) as W4. pose proof (Hi x Hx) as I. pose proof (Rmult_lt_0_compat _ (1 - (v_wr x + v_wt x + v_ws x)) I ltac:(lra)) as Q.
    replace (c_ab P false x) with (v_inc P false x * (1 - (v_wr x + v_wt x + v_ws x))) by (unfold c_ab, c_rw, c_tw, c_sw; ring). lra. }
  assert (Ne : V a <> []) by (unfold V; destruct n as [|m]; [lia|cbn; discriminate]).
  unfold c_known. clear - K Ne. destruct (V a) as [|x0 t]; [congruence|]. cbn [map total].
  match goal with |- ?x + ?r <> 0 => assert (0 < x) by (apply K; now left); assert (0 <= r) end.
  { apply total_nonneg_map. intros b Hb'. left. apply K. now right. }
  lra.
Qed.
End Run.

(** C177.  In a whole run on a film of absorption coefficient a, whose
    trajectories all make a first step of at least l: the reflectance exceeds what
    the surface turns back on entry (which does not depend on a, C160) by at most
    exp (- a l), and the transmittance is at most that. *)
Theorem C177_dark_film : forall nevents ntraj spot tmin tmax pmin pmax mu_scat P D a l o,
  (0 < nevents)%nat -> (0 < ntraj)%nat -> 0 < mu_scat -> plain_film P -> (forall n i, 0 <= d_u D n i < 1) -> 0 <= a ->
  (forall i, (i < ntraj)%nat -> l <= - ln (1 - d_u D 0 i) / mu_scat) ->
  film_run nevents ntraj spot tmin tmax pmin pmax mu_scat (with_absorption a P) D = Ok (Some o) ->
  let surface := fold_right Rplus 0 (o_inc_refl o) in
  surface <= o_refl o <= surface + exp (- (a * l)) /\ 0 <= o_trans o <= exp (- (a * l)).
Proof.
  intros nev n spot tmin tmax pmin pmax mu P D a l o Hn Hnt Hmu HP Hu Ha Hl H. apply (black_run nev n spot tmin tmax pmin pmax mu P D l Hn Hnt Hmu HP Hu Hl a o Ha H).
Qed.
Print Assumptions C177_dark_film.

(** In the limit: lit at the angle th, the film reflects what its surface (with
    its coverslip) does not let in, and lets nothing through. *)
Theorem C177_black_film : forall nevents ntraj spot th pmin pmax mu_scat P D inside p,
  (0 < nevents)%nat -> (0 < ntraj)%nat -> 0 < mu_scat -> plain_film P -> (forall n i, 0 <= d_u D n i < 1) ->
  (forall i, (i < ntraj)%nat -> 0 < d_u D 0 i) ->
  0 <= th < PI / 2 -> 0 <= inside < PI / 2 -> snell (p_nmedium P) th (p_nsample P) inside -> inside <= p_detection P ->
  fresnel_pass_frac (p_nmedium P) (p_nfront P) (p_nsample P) [th] = Ok [p] -> 0 < p ->
  forall eps, 0 < eps -> exists A, forall a, A <= a ->
  exists o, film_run nevents ntraj spot th th pmin pmax mu_scat (with_absorption a P) D = Ok (Some o)
    /\ 1 - p <= o_refl o < 1 - p + eps /\ 0 <= o_trans o < eps.
Proof.
  intros nev n spot th pmin pmax mu P D inside p Hn Hnt Hmu HP Hu Hu0 H1 H2 HS Hd Hpf Hp eps He.
  assert (L : exists l, 0 < l /\ forall i, (i < n)%nat -> l <= - ln (1 - d_u D 0 i) / mu).
  { clear Hnt. induction n as [|m IH]; [exists 1; split; [lra|lia]|]. destruct IH as (l & A & B); [intros i Hi; apply Hu0; lia|].
    assert (C : 0 < - ln (1 - d_u D 0 m) / mu).
    { apply Rdiv_lt_0_compat; [|exact Hmu]. pose proof (Hu0 m ltac:(lia)). pose proof (Hu 0%nat m). rewrite <- ln_Rinv by lra. rewrite <- ln_1. apply ln_increasing; [lra|]. rewrite <- Rinv_1. apply Rinv_lt_contravar; lra. }
    exists (Rmin l (- ln (1 - d_u D 0 m) / mu)). split; [now apply Rmin_pos|]. intros i Hi. destruct (Nat.eq_dec i m) as [->|Ne]; [apply Rmin_r|]. eapply Rle_trans; [apply Rmin_l|]. apply B. lia. }
  destruct L as (l & Hl0 & Hl).
  pose proof (fl_nt P HP) as Ent. pose proof HP as (Hb & Hr & Hg & Hk1 & Hk2 & Hnp & Hz & Hth & Hma & Hm & Hf & Hbk).
  rewrite pass_frac_ok in Hpf by (constructor; [lra|constructor]). cbn [map] in Hpf. injection Hpf as Ep.
  exists (Rmax 1 (- ln (eps / 2) / l)). intros a HA.
  assert (Ha : 0 < a) by (pose proof (Rmax_l 1 (- ln (eps / 2) / l)); lra).
  assert (Hx : exp (- (a * l)) < eps).
  { apply Rle_lt_trans with (eps / 2); [|lra]. rewrite <- (exp_ln (eps / 2)) by lra. apply exp_le_mono.
    pose proof (Rle_trans _ _ _ (Rmax_r 1 (- ln (eps / 2) / l)) HA) as Q. apply (Rmult_le_compat_r l) in Q; [|lra]. unfold Rdiv in Q. rewrite Rmult_assoc, Rinv_l in Q by lra. fold (eps / 2) in Q. lra. }
  assert (Z : forall i, Rabs (vz (nth 0 (t_dir (fl_traj nev spot th th pmin pmax mu (with_absorption a P) D i)) vzero)) = cos inside).
  { intros i. rewrite fl_first by assumption.
    destruct (fl_entry_some th th pmin pmax P HP D i) as (b & _ & _ & Hc & Hs). rewrite dir_abs, Hc.
    replace (uniform th th (d_l2 D i)) with th in Hs by (unfold uniform; ring).
    assert (Es : sin b = sin inside) by (rewrite Hs; unfold snell in HS; field_simplify_eq; lra).
    assert (C : 0 < cos inside) by (apply cos_gt_0; lra).
    rewrite <- (Rabs_pos_eq (cos inside)) by lra. apply Rsqr_eq_abs_0. pose proof (sin2_cos2 b). pose proof (sin2_cos2 inside). rewrite Es in *. lra. }
  assert (I : forall i, v_inc P false (film_view P (absorbed a (made_walk nev mu D (fl_pos spot D i) (fl_dir th th pmin pmax P D i) i))) = p
     /\ c_di P false (film_view P (absorbed a (made_walk nev mu D (fl_pos spot D i) (fl_dir th th pmin pmax P D i) i))) = 1 - p).
  { intros i. rewrite <- traj_abs. rewrite <- Ent in HS. split.
    - rewrite (beam_inc P th inside Hb) by first [apply Z | lra | exact HS]. rewrite Ent. exact Ep.
    - rewrite (beam_di P th inside Hb) by first [apply Z | lra | exact HS]. rewrite Ent, Ep. reflexivity. }
  destruct (black_answers nev n spot th th pmin pmax mu P D l Hn Hnt Hmu HP Hu Hl a Ha Hl0) as (o & Ho).
  { intros x Hx'. apply in_map_iff in Hx' as (i & <- & _). rewrite (proj1 (I i)). exact Hp. }
  exists o. split; [exact Ho|].
  destruct (black_run nev n spot th th pmin pmax mu P D l Hn Hnt Hmu HP Hu Hl a o ltac:(lra) Ho) as (S0 & S1 & S2).
  assert (S3 : total (o_inc_refl o) = 1 - p).
  { rewrite S0, map_map, map_length, seq_length. rewrite (map_ext _ (fun _ => (1 - p) / INR n)) by (intros i; now rewrite (proj2 (I i))).
    assert (HI : 0 < INR n) by now apply lt_0_INR.
    assert (Q : forall (c : R) (s : list nat), total (map (fun _ => c) s) = c * INR (length s)).
    { intros c s. induction s as [|y s IH]; [cbn; ring|]. cbn [map total length]. rewrite S_INR, IH. ring. }
    rewrite Q, seq_length. field. lra. }
  rewrite S3 in *. lra.
Qed.
Print Assumptions C177_black_film.

(** The same for spheres: a run on a sphere (which always answers) of absorption
    coefficient a. *)
Theorem C177_dark_sphere : forall nevents ntraj spot mu_scat P D a l,
  (0 < nevents)%nat -> (0 < ntraj)%nat -> 0 < mu_scat -> p_boundary P = sphere -> p_run P = false -> plain P -> valid_params P 1 -> full_detection P ->
  0 < p_thickness P -> 0 < spot <= p_thickness P -> 0 < p_nmedium P <= p_nsample P -> good_draws D -> 0 <= a ->
  (forall i, (i < ntraj)%nat -> l <= - ln (1 - d_u D 0 i) / mu_scat) ->
  exists o, sphere_run nevents ntraj spot mu_scat (with_absorption a P) D = Ok (Some o)
    /\ let surface := fold_right Rplus 0 (o_inc_refl o) in
       surface <= o_refl o <= surface + exp (- (a * l)) /\ 0 <= o_trans o <= exp (- (a * l)).
Proof.
  intros nev n spot mu P D a l Hn Hnt Hmu Hb Hr Hp Hv Hfd Hd Hsp Hns HD Ha Hl.
  pose proof HD as [_ Hu]. pose proof Hp as (Hg & H1 & H2 & Hp1 & Hp2).
  pose proof (valid_good _ _ Hv) as (Gm & Gs & Gt & Gf & Gb & _).
  set (D0 := mk_draws (d_l0 D) (d_l1 D) (d_l2 D) (d_l3 D) (d_ang D) (d_u D) (d_rang D) (fun _ _ _ => 0)).
  assert (E0 : sphere_run nev n spot mu (with_absorption a P) D = sphere_run nev n spot mu (with_absorption a P) D0).
  { rewrite !(sp_run nev spot mu (with_absorption a P) Hn Hmu Hd Hsp Hns) by exact HD. apply no_rerun_draws, Hr. }
  assert (Hvn : valid_params (with_absorption a P) n).
  { unfold valid_params, with_absorption in *. cbn [p_boundary p_run p_gonio p_kz0rot p_kz0refl p_nparticle p_nmatrix p_zlow p_thickness p_muabs p_nmedium p_nsample p_nfront p_nback p_detection p_maxdepth p_maxstuck p_fine] in *.
    destruct Hv as (A & B & C & F & G & H & J & K & L). repeat (split; try assumption); intros kr Hkr; congruence. }
  destruct (sphere_run_ok nev n spot mu (with_absorption a P) D0 Hn Hnt Hd Hsp Hmu Ha (proj1 HD) (proj2 HD)) as (o & Eo & _); try assumption.
  { intros. cbn. lra. }
  rewrite <- E0 in Eo. exists o. split; [exact Eo|].
  rewrite (sp_run nev spot mu (with_absorption a P) Hn Hmu Hd Hsp Hns n D HD) in Eo.
  destruct (answered (with_absorption a P) false 21 _ _ 0 _ o Hr Hg H1 H2 Eo) as (_ & B2 & _ & ER & ET).
  rewrite crt_view in Eo by assumption. destruct (view_all (with_absorption a P) _ o H1 H2 Eo) as (_ & _ & EI).
  set (W := fun i => made_walk nev mu D (sp_pos spot (with_absorption a P) D i) (sp_dir spot (with_absorption a P) D i) i).
  assert (EV : map (film_view (with_absorption a P)) (map (sp_traj nev spot mu (with_absorption a P) D) (seq 0 n)) = map (fun i => film_view P (absorbed a (W i))) (seq 0 n)).
  { rewrite map_map. apply map_ext. intros i. rewrite view_abs. unfold sp_traj. rewrite made_absorbed. reflexivity. }
  rewrite EV in *. set (v := map (fun i => film_view P (absorbed a (W i))) (seq 0 n)) in *.
  assert (C : forall x i, 0 <= x -> (i < n)%nat -> col_ok 1 (absorbed x (W i))).
  { intros x i Hx Hi. unfold W. rewrite <- made_absorbed. apply (made_ok nev n mu x D (fun j => sp_pos spot (with_absorption a P) D j) (fun j => sp_dir spot (with_absorption a P) D j)); assumption. }
  assert (Hw : forall x, In x v -> wview x).
  { intros x Hx. apply in_map_iff in Hx as (i & <- & Hi). apply film_view_ok; [exact Hg|]. apply C; [exact Ha|]. apply in_seq in Hi. lia. }
  assert (Le : forall x, In x v -> v_wr x + v_wt x + v_ws x <= exp (- (a * l))).
  { intros x Hx. apply in_map_iff in Hx as (i & <- & Hi). apply in_seq in Hi. apply (left_over P a (W i) l).
    - intros y Hy. change (k_steps (W i)) with (steps_of nev mu D i) in Hy. unfold steps_of in Hy. apply in_map_iff in Hy. destruct Hy as (j & <- & _). apply L_montecarlo.step_nonneg; [lra|apply Hu].
    - change (k_steps (W i)) with (steps_of nev mu D i). unfold steps_of. now rewrite map_length, seq_length.
    - change (k_steps (W i)) with (steps_of nev mu D i). unfold steps_of. rewrite (nth_map_in _ _ _ 0%nat) by (now rewrite seq_length). rewrite seq_nth by exact Hn. apply Hl. lia.
    - exact Ha.
    - apply film_view_ok; [exact Hg|]. apply C; [lra|lia]. }
  intros s. assert (Hs : s = total (map (fun x => c_di P false x / INR (length v)) v)) by (unfold s; rewrite EI; reflexivity).
  rewrite Hs, ER, ET.
  change (c_R (with_absorption a P) false v) with (c_R P false v). change (c_T (with_absorption a P) false v) with (c_T P false v).
  apply film_bounds; auto. unfold v. now rewrite map_length, seq_length.
Qed.
Print Assumptions C177_dark_sphere.

(** Without a coverslip this is Fresnel's reflectance of the surface (to within
    the code's 1e-9). *)
Theorem C177_bare : forall nevents ntraj spot th pmin pmax mu_scat P D inside,
  (0 < nevents)%nat -> (0 < ntraj)%nat -> 0 < mu_scat -> plain_film P -> (forall n i, 0 <= d_u D n i < 1) ->
  (forall i, (i < ntraj)%nat -> 0 < d_u D 0 i) ->
  0 <= th < PI / 2 -> 0 <= inside < PI / 2 -> snell (p_nmedium P) th (p_nsample P) inside -> inside <= p_detection P ->
  p_nfront P = None ->
  forall eps, / 10 ^ 9 < eps -> exists A, forall a, A <= a ->
  exists o, film_run nevents ntraj spot th th pmin pmax mu_scat (with_absorption a P) D = Ok (Some o)
    /\ surface_R (p_nmedium P) th (p_nsample P) inside <= o_refl o < surface_R (p_nmedium P) th (p_nsample P) inside + eps /\ 0 <= o_trans o < eps.
Proof.
  intros nev n spot th pmin pmax mu P D inside Hn Hnt Hmu HP Hu Hu0 H1 H2 HS Hd Hf eps He.
  pose proof HP as (_ & _ & _ & _ & _ & _ & _ & _ & _ & Hm & _). pose proof EPS_pos as E0.
  pose proof (bare_value (p_nmedium P) th (p_nsample P) inside ltac:(lra) ltac:(lra) H1 H2 HS) as E. rewrite <- Hf in E.
  pose proof (surface_range (p_nmedium P) th (p_nsample P) inside ltac:(lra) ltac:(lra) H1 H2) as Q. set (r := surface_R _ _ _ _) in *.
  assert (L : 1 - r - EPS <= (1 - r) / (1 + EPS) <= 1 - r).
  { split; apply (Rmult_le_reg_r (1 + EPS)); try lra; unfold Rdiv; rewrite Rmult_assoc, Rinv_l by lra; nra. }
  assert (Hp : 0 < (1 - r) / (1 + EPS)) by (apply Rdiv_lt_0_compat; lra).
  fold EPS in He.
  destruct (C177_black_film nev n spot th pmin pmax mu P D inside _ Hn Hnt Hmu HP Hu Hu0 H1 H2 HS Hd E Hp (eps - EPS) ltac:(lra)) as (A & HA).
  exists A. intros a Ha. destruct (HA a Ha) as (o & Ho & B & C). exists o. split; [exact Ho|]. lra.
Qed.
Print Assumptions C177_bare.

(** A film of index 3/2 in air, lit along the normal, with more and more
    absorption: 4 per cent. *)
Definition glass_film : params :=
  mk_params 10 1 (3 / 2) film 0 (PI / 2) None None false 20 (1 / 100) 0 None None None 0 None None.
Definition even_draws : draws := mk_draws (fun _ => 1 / 2) (fun _ => 0) (fun _ => 0) (fun _ => 0) (fun _ _ => (PI / 3, 0)) (fun _ _ => 1 / 2) (fun _ _ _ => (0, 0)) (fun _ _ _ => 0).
Example C177_case : exists A, forall a, A <= a ->
  exists o, film_run 20 100 1 0 0 0 (2 * PI) 1 (with_absorption a glass_film) even_draws = Ok (Some o)
    /\ 4 / 100 <= o_refl o < 41 / 1000 /\ 0 <= o_trans o < 1 / 1000.
Proof.
  pose proof PI_RGT_0 as HPI.
  assert (HP : plain_film glass_film).
  { unfold plain_film, glass_film. cbn [p_boundary p_run p_gonio p_kz0rot p_kz0refl p_nparticle p_zlow p_thickness p_muabs p_nmedium p_nsample p_nfront p_nback].
    do 7 (split; [reflexivity|]). split; [lra|]. split; [lra|]. split; [lra|]. split; intros m E; discriminate. }
  assert (HS : snell (p_nmedium glass_film) 0 (p_nsample glass_film) 0) by (unfold snell; rewrite sin_0; ring).
  destruct (C177_bare 20 100 1 0 0 (2 * PI) 1 glass_film even_draws 0) with (eps := 1 / 1000) as (A & HA); try lia; try lra; auto.
  - intros n i. cbn [d_u even_draws]. lra.
  - intros i _. cbn [d_u even_draws]. lra.
  - cbn [p_detection glass_film]. lra.
  - exists A. intros a Ha. destruct (HA a Ha) as (o & Ho & B & C). exists o. split; [exact Ho|].
    assert (V : surface_R (p_nmedium glass_film) 0 (p_nsample glass_film) 0 = 4 / 100).
    { unfold surface_R, textbook_Rp, textbook_Rs. cbn [p_nmedium p_nsample glass_film]. rewrite cos_0. field. }
    rewrite V in B. lra.
Qed.

Definition glass_sphere : params :=
  mk_params 10 1 (4 / 3) sphere 0 (PI / 2) None None false 20 (1 / 100) 0 None None None 0 None None.
Example C177_sphere_case : forall a, 0 <= a ->
  exists o, sphere_run 20 100 10 (1 / 10) (with_absorption a glass_sphere) even_draws = Ok (Some o)
    /\ fold_right Rplus 0 (o_inc_refl o) <= o_refl o <= fold_right Rplus 0 (o_inc_refl o) + exp (- (a * 5)) /\ 0 <= o_trans o <= exp (- (a * 5)).
Proof.
  intros a Ha. pose proof PI_RGT_0 as HPI.
  apply (C177_dark_sphere 20 100 10 (1 / 10) glass_sphere even_draws a 5); try lia; try lra; try reflexivity.
  - repeat split; reflexivity.
  - unfold valid_params, glass_sphere. cbn. repeat split; try lra; try congruence; try (intros; discriminate).
  - cbn. lra.
  - cbn. lra.
  - cbn. lra.
  - split; intros; cbn; lra.
  - intros i _. cbn [d_u even_draws].
    assert (L : 1 / 2 <= - ln (1 - 1 / 2)).
    { replace (1 - 1 / 2) with (/ 2) by lra. rewrite ln_Rinv by lra. rewrite Ropp_involutive. left. apply exp_lt_inv. rewrite exp_ln by lra.
      assert (E4 : exp (1 / 2) * exp (1 / 2) = exp 1) by (rewrite <- exp_plus; f_equal; lra). pose proof exp_le_3. pose proof (exp_pos (1 / 2)). nra. }
    unfold Rdiv in *. rewrite Rinv_mult, Rinv_inv in *. lra.
Qed.
