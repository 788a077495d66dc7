(** Lemmas for C159. *)
From Coq Require Import Lra Lia Psatz Reals List.
From Verif Require Import Num Spec Spec_detector Spec_meta Spec_mean Spec_direct Spec_estimate Spec_single Spec_oblique M_init M_montecarlo M_model M_detector M_simulation
  L_num L_init L_fresnel L_weights L_outcomes L_exits L_meta L_meta3 L_meta4 L_simulation L_fieldflow L_mean L_periodic L_local L_rough L_direct L_estimate L_single.
From Coquelicot Require Import Coquelicot.
Import ListNotations.
Open Scope R_scope.

Lemma refracted_ok a th b : 0 < a -> 0 < b -> 0 <= th < PI / 2 -> a * sin th < b ->
  0 <= refracted a th b < PI / 2 /\ snell a th b (refracted a th b) /\ refraction th a b = Some (refracted a th b).
Proof.
  intros Ha Hb Ht Hs. pose proof PI_RGT_0. assert (S0 : 0 <= sin th) by (apply sin_ge_0; lra).
  assert (B : 0 <= a * sin th / b < 1).
  { assert (0 <= a * sin th) by (apply Rmult_le_pos; lra). split; [apply Rmult_le_pos; [lra|left; now apply Rinv_0_lt_compat]|]. apply Rlt_div_l; lra. }
  unfold refracted, snell. split; [split|split].
  - destruct (Rle_lt_or_eq_dec _ _ (proj1 B)) as [L|<-]; [|rewrite asin_0; lra]. rewrite <- asin_0. left. apply asin_increasing; lra.
  - rewrite <- asin_1. apply asin_increasing; lra.
  - rewrite sin_asin by lra. field. lra.
  - unfold refraction. replace (a / b * sin th) with (a * sin th / b) by (unfold Rdiv; ring).
    rewrite (proj2 (Rltb_false 1 _)); [reflexivity|]. rewrite Rabs_pos_eq; lra.
Qed.
Lemma unpolarized_ok a b th : 0 < a -> 0 < b -> 0 <= th < PI / 2 -> a * sin th < b ->
  fst (fresnel_refl1 a b th) + snd (fresnel_refl1 a b th) = 2 * unpolarized_R a b th.
Proof.
  intros Ha Hb Ht Hs. destruct (refracted_ok a th b Ha Hb Ht Hs) as (R1 & R2 & _).
  rewrite (fresnel1_textbook a b th (refracted a th b)) by assumption. cbn [fst snd]. unfold unpolarized_R. field.
Qed.
Lemma pf1_at a g b th : 0 < a -> 0 < b -> 0 <= th < PI / 2 -> a * sin th < b -> (forall m, g = Some m -> 0 < m /\ a * sin th < m) ->
  pf1 a g b th = through_at a g b th.
Proof.
  intros Ha Hb Ht Hs Hg. unfold pf1, through_at. set (m := match g with Some n => n | None => a end).
  pose proof PI_RGT_0.
  assert (S1 : sin th < 1) by (rewrite <- sin_PI2; apply sin_increasing_1; lra).
  assert (Hm : 0 < m /\ a * sin th < m).
  { unfold m; destruct g as [m'|]; [now apply Hg|]. split; [exact Ha|]. rewrite <- (Rmult_1_r a) at 2. now apply Rmult_lt_compat_l. }
  destruct Hm as [Hm Hm2]. destruct (refracted_ok a th m Ha Hm Ht Hm2) as (R1 & R2 & R3).
  unfold theta_inside. rewrite R3. set (tg := refracted a th m) in *. unfold snell in R2.
  assert (Q1 : m * sin tg < b) by lra. assert (Q2 : m * sin tg < a) by (rewrite <- R2; pose proof (Rmult_lt_compat_l a _ _ Ha S1); lra).
  unfold fresnel_trans1. cbn [fst snd].
  pose proof (unpolarized_ok a m th Ha Hm Ht Hm2) as U1. pose proof (unpolarized_ok m b tg Hm Hb R1 Q1) as U2. pose proof (unpolarized_ok m a tg Hm Ha R1 Q2) as U3.
  rewrite U2, U3.
  replace (1 - fst (fresnel_refl1 a m th) + (1 - snd (fresnel_refl1 a m th))) with (2 * (1 - unpolarized_R a m th)) by lra.
  replace (1 - fst (fresnel_refl1 m b tg) + (1 - snd (fresnel_refl1 m b tg))) with (2 * (1 - unpolarized_R m b tg)) by lra.
  unfold Rdiv. f_equal; [field|]. f_equal. field.
Qed.

(** ** Runs *)
Section Run.
Variables (nev : nat) (spot tmin tmax pmin pmax mu : R) (P : params) (D : draws).
Hypothesis (Hn : (0 < nev)%nat) (Hmu : 0 < mu) (HP : plain_film P) (Hu : forall n i, 0 <= d_u D n i < 1)
  (Hang : 0 <= tmin <= tmax) (Hmax : tmax < PI / 2) (Hl : forall i, 0 <= d_l2 D i <= 1) (Hsl : slips_admit P tmax).
Local Notation s i := (step_of mu (d_u D 0 i)).
Local Notation tr i := (fl_traj nev spot tmin tmax pmin pmax mu P D i).
Local Notation out i := (incidence tmin tmax D i).
Local Notation tin i := (inner tmin tmax P D i).
Local Notation nm := (p_nmedium P).
Local Notation ns := (p_nsample P).

Lemma out_range i : 0 <= out i <= tmax.
Proof. unfold incidence. specialize (Hl i). nra. Qed.
Lemma out_sin i : 0 <= sin (out i) <= sin tmax /\ sin tmax < 1.
Proof.
  pose proof (out_range i). pose proof PI_RGT_0. split; [split|].
  - apply sin_ge_0; lra.
  - apply sin_incr_1; lra.
  - rewrite <- sin_PI2. apply sin_increasing_1; lra.
Qed.
Lemma inner_ok i : 0 <= tin i < PI / 2 /\ nm * sin (out i) = ns * sin (tin i) /\ 0 < cos (tin i) <= 1
  /\ nm * sin (out i) < nm /\ refraction (out i) nm ns = Some (tin i).
Proof.
  destruct HP as (_ & _ & _ & _ & _ & _ & _ & _ & _ & Hm & _). destruct (out_sin i) as [S1 S2]. pose proof (out_range i).
  assert (L : nm * sin (out i) < nm) by (rewrite <- (Rmult_1_r nm) at 2; apply Rmult_lt_compat_l; lra).
  destruct (refracted_ok nm (out i) ns) as (R1 & R2 & R3); try lra. fold (inner tmin tmax P D i) in *.
  split; [exact R1|]. split; [exact R2|]. split; [|split; [exact L|exact R3]]. pose proof PI_RGT_0. split; [apply cos_gt_0; lra|apply COS_bound].
Qed.
Lemma dir_z i : vz (fl_dir tmin tmax pmin pmax P D i) = cos (tin i).
Proof.
  destruct HP as (_ & _ & _ & _ & _ & _ & _ & _ & _ & Hm & _).
  unfold fl_dir, fl_entry, entry_dir. rewrite (Rabs_pos_eq nm), (Rabs_pos_eq ns) by lra.
  change (uniform tmin tmax (d_l2 D i)) with (out i). destruct (inner_ok i) as (_ & _ & _ & _ & ->). reflexivity.
Qed.
Lemma tr_first i : vz (nth 0 (t_pos (tr i)) vzero) = 0 /\ vz (nth 1 (t_pos (tr i)) vzero) = s i * cos (tin i)
  /\ vz (nth 0 (t_dir (tr i)) vzero) = cos (tin i) /\ nth 0 (t_w (tr i)) 0 = exp (- (p_muabs P * s i)).
Proof.
  rewrite <- dir_z. unfold fl_traj, made. cbn [t_pos t_dir t_w]. destruct nev as [|n]; [lia|]. unfold steps_of. cbn [seq map repeat].
  change (scat_dir (fl_dir tmin tmax pmin pmax P D i) (d_ang D i) 0) with (fl_dir tmin tmax pmin pmax P D i). set (k := fl_dir _ _ _ _ _ _ _).
  split; [|split; [|split]].
  - unfold move, fl_pos. cbn. ring.
  - unfold move, fl_pos. cbn. ring.
  - reflexivity.
  - unfold absorb, cumsum. cbn. rewrite Rplus_0_l. ring.
Qed.
Lemma steep_tr i : steep ns nm (cos (tin i)).
Proof.
  destruct (inner_ok i) as (A & B & _ & L & _). unfold steep. pose proof PI_RGT_0.
  replace (1 - cos (tin i) ^ 2) with (sin (tin i) ^ 2) by (pose proof (sin2_cos2 (tin i)); unfold Rsqr in *; lra).
  rewrite sqrt_pow2 by (apply sin_ge_0; lra). lra.
Qed.
Lemma tr_ok n i : (i < n)%nat -> wf_len (tr i) /\ dirs_ok (tr i).
Proof.
  intros Hi. destruct (fl_views nev spot tmin tmax pmin pmax mu P Hn Hmu HP n D _ Hu eq_refl) as (_ & _ & _ & H).
  destruct (H (tr i)) as [A B]; [apply in_map, in_seq; lia|]. split; [apply A|apply B, HP].
Qed.
Lemma tr_exit i : v_t (film_view P (tr i)) = 1%nat <-> p_thickness P <= s i * cos (tin i).
Proof.
  destruct (tr_ok (S i) i ltac:(lia)) as (W & Dk). destruct (tr_first i) as (Z0 & Z1 & K0 & _).
  assert (L0 : (0 < length (t_dir (tr i)))%nat) by apply W.
  pose proof (fl_nt P HP) as Et. destruct (inner_ok i) as (_ & _ & C & _).
  assert (S0 : 0 <= s i) by (apply L_montecarlo.step_nonneg; [exact Hmu|apply Hu]).
  assert (S1 : 0 <= s i * cos (tin i)) by (apply Rmult_le_pos; lra).
  destruct HP as (Hb & _ & _ & _ & _ & _ & Hz & Hth & _ & Hm & _). rewrite <- Et in Hm. 
  unfold film_view. cbn [v_t]. rewrite Hb, Hz. split; intros H.
  - destruct (find_valid_exits (choose_n_tir P) nm (p_thickness P) 0 film (tr i)) as [[ps ng] ti] eqn:He.
    destruct (trajectory_outcome _ _ _ _ _ _ _ _ _ W He) as (r & tt & st & Hev & Ho). rewrite Hev in H. cbn [i_trans] in H. subst tt.
    pose proof (film_exit_characterised (choose_n_tir P) nm (p_thickness P) 0 (tr i) ps ng ti 0 0 W Dk ltac:(lra) Hm He L0) as X.
    cbn zeta in X. rewrite Z0 in X. destruct X as [Hp _]; [unfold in_slab; lra|].
    destruct Ho as [(_ & _ & _ & E & _)|[(k & _ & _ & _ & _ & E & _)|(k & F & Pk & _ & _ & E & _)]]; try discriminate.
    assert (k = 0%nat) as -> by lia. destruct (proj1 Hp Pk) as [_ [[_ U]|[O _]]]; [rewrite Z1 in U; lra|discriminate].
  - destruct (first_exit_physical (choose_n_tir P) nm (p_thickness P) (tr i) 0 W Dk Hth Hm L0) as [_ X].
    + intros j Hj. replace j with 0%nat by lia. rewrite Z0. lra.
    + rewrite K0, Et. apply steep_tr.
    + rewrite Z1 in X. destruct (X H) as (ti & E). rewrite E. reflexivity.
Qed.
Lemma film_angle_cos t : 0 <= t <= PI / 2 -> film_angle (cos t) = t.
Proof. intros H. pose proof PI_RGT_0. unfold film_angle. rewrite Rabs_pos_eq by (apply cos_ge_0; lra). apply acos_cos. lra. Qed.
Lemma first_kz i : nth 0 (map vz (t_dir (tr i))) 0 = cos (tin i).
Proof. etransitivity; [exact (map_nth vz (t_dir (tr i)) vzero 0)|]. apply tr_first. Qed.
Lemma tr_in i : v_in P (film_view P (tr i)) = Some (out i).
Proof.
  pose proof (fl_nt P HP) as Et. destruct (inner_ok i) as (A & B & C & L & _). pose proof (out_range i) as O.
  destruct HP as (Hb & _ & _ & _ & _ & _ & _ & _ & _ & Hm & _).
  unfold v_in, film_view. cbn [v_first]. rewrite Hb. unfold film_exit_angle. cbn [select_col]. rewrite first_kz, film_angle_cos, Et by lra.
  destruct (refracted_ok ns (tin i) nm) as (_ & _ & R3); try lra. rewrite R3. cbn [option_map]. f_equal.
  unfold refracted. rewrite <- B. replace (nm * sin (out i) / nm) with (sin (out i)) by (field; lra). rewrite asin_sin by lra. apply film_angle_cos. lra.
Qed.
Lemma tr_pass i : p_thickness P <= s i * cos (tin i) ->
  c_tp P false (film_view P (tr i)) = both_at P (out i) * exp (- (p_muabs P * s i)).
Proof.
  intros H. pose proof (proj2 (tr_exit i) H) as E. unfold film_view in E. cbn [v_t] in E.
  pose proof (fl_nt P HP) as Et. destruct (inner_ok i) as (A & B & C & L & _). pose proof (out_range i) as O. destruct (out_sin i) as [S1 S2].
  unfold c_tp, c_tw, v_inc. rewrite tr_in. cbn [nan_to_num]. unfold film_view. cbn [v_wt v_at]. rewrite E.
  unfold L_meta.exit_angle. destruct HP as (Hb & _ & _ & _ & _ & _ & _ & _ & _ & Hm & Hf & Hbk). rewrite Hb.
  unfold film_exit_angle. cbn [select_col]. destruct (tr_first i) as (_ & _ & K & W0). rewrite W0, first_kz, film_angle_cos, Et by lra.
  assert (Sm : nm * sin (out i) <= nm * sin tmax) by (apply Rmult_le_compat_l; lra).
  rewrite !pf1_at; try lra.
  - unfold both_at. fold (inner tmin tmax P D i). ring.
  - intros m Em. split; [now apply Hbk|]. rewrite <- B. specialize (Hsl m (or_intror Em)). lra.
  - intros m Em. split; [now apply Hf|]. specialize (Hsl m (or_introl Em)). lra.
Qed.
Lemma oblique_run n : direct_fraction (film_run nev n spot tmin tmax pmin pmax mu P D)
  = total (map (fun i => if Rleb (p_thickness P / cos (tin i)) (s i) then both_at P (out i) / INR n * exp (- (p_muabs P * s i)) else 0) (seq 0 n)).
Proof.
  rewrite fl_run by assumption. destruct (fl_views nev spot tmin tmax pmin pmax mu P Hn Hmu HP n D _ Hu eq_refl) as (V1 & V2 & V3 & _).
  pose proof (fl_nt P HP) as Et. pose proof HP as HP'. destruct HP' as (Hb & Hr & Hg & Hk1 & Hk2 & _ & _ & _ & _ & Hm & Hf & Hbk).
  rewrite crt_view by assumption. rewrite direct_view; try assumption; try lra. rewrite !map_map, !map_length, seq_length. change (fold_right Rplus 0) with total.
  f_equal. apply map_ext. intros i.
  assert (Q : p_thickness P / cos (tin i) <= s i <-> p_thickness P <= s i * cos (tin i)).
  { destruct (inner_ok i) as (_ & _ & C & _). exact (Rcomplements.Rle_div_l _ _ _ (proj1 C)). }
  unfold c_direct. destruct (Rleb (p_thickness P / cos (tin i)) (s i)) eqn:E.
  - apply Rleb_true in E. apply Q in E. rewrite (proj2 (tr_exit i) E). cbn [Nat.eqb]. rewrite tr_pass by exact E. unfold Rdiv. ring.
  - apply Rleb_false in E. destruct (Nat.eqb_spec (v_t (film_view P (tr i))) 1) as [V|V]; [|reflexivity].
    apply tr_exit, Q in V. lra.
Qed.
Lemma oblique_some n o i : film_run nev n spot tmin tmax pmin pmax mu P D = Ok (Some o) -> (i < n)%nat ->
  (nth i (o_trans_i o) 0%nat = 1%nat <-> p_thickness P <= s i * cos (tin i))
  /\ (p_thickness P <= s i * cos (tin i) -> nth i (o_trans_pass o) 0 = both_at P (out i) * exp (- (p_muabs P * s i)) / INR n).
Proof.
  intros H Hi. rewrite fl_run in H by assumption. pose proof HP as HP'. destruct HP' as (Hb & Hr & Hg & Hk1 & Hk2 & _).
  rewrite crt_view in H by assumption. apply view_fields in H; try assumption. destruct H as [-> ->].
  rewrite !map_map, !map_length, seq_length. rewrite Properties_returned.nth_map_seq_n, Properties_returned.nth_map_seq_R by exact Hi.
  split; [apply tr_exit|]. intros E. now rewrite tr_pass.
Qed.
End Run.
