(** Lemmas for C156. *)
From Coq Require Import Lra Lia Psatz Reals List.
From Verif Require Import Num Spec Spec_detector Spec_meta Spec_mean Spec_direct M_init M_montecarlo M_detector M_simulation
  L_num L_outcomes L_exits L_meta L_meta3 L_meta4 L_simulation L_fieldflow L_mean L_periodic L_local L_rough.
From Coquelicot Require Import Coquelicot.
Import ListNotations.
Open Scope R_scope.

(** ** Normal incidence *)
Lemma refl_normal a b : 0 < a -> 0 < b -> fresnel_refl1 a b 0 = (normal_R a b, normal_R a b).
Proof.
  intros Ha Hb. unfold fresnel_refl1. rewrite sin_0, cos_0.
  assert (E : (Rltb (b / a) 1 && Rleb (asin (b / a)) 0)%bool = false).
  { destruct (Rltb (b / a) 1) eqn:L; [|reflexivity]. cbn [andb]. apply Rleb_false. apply Rltb_true in L.
    assert (0 < b / a) by (apply Rdiv_lt_0_compat; lra). rewrite <- asin_0. apply asin_increasing; lra. }
  rewrite E. replace (b ^ 2 - (a * 0) ^ 2) with (b ^ 2) by ring.
  rewrite Rabs_pos_eq by apply pow2_ge_0. rewrite sqrt_pow2 by lra. unfold abs_ratio_sq, normal_R.
  assert (0 < a * b) by (now apply Rmult_lt_0_compat). assert (0 < b ^ 2) by (apply pow_lt; exact Hb).
  rewrite (proj2 (Reqb_false (a * b + b ^ 2 * 1) 0)) by lra. rewrite (proj2 (Reqb_false (a * 1 + b) 0)) by lra.
  apply (f_equal2 pair); rewrite pow2_abs; f_equal; field; lra.
Qed.
Lemma trans_normal a b : 0 < a -> 0 < b -> 1 - normal_R a b = normal_T a b.
Proof. intros Ha Hb. unfold normal_R, normal_T. field. lra. Qed.
Lemma normal_R_range a b : 0 < a -> 0 < b -> 0 <= normal_R a b < 1.
Proof.
  intros Ha Hb. unfold normal_R. split; [apply pow2_ge_0|].
  assert (-1 < (a - b) / (a + b) < 1) by (split; [apply Rlt_div_r|apply Rlt_div_l]; lra). nra.
Qed.
Lemma refraction_normal a b : refraction 0 a b = Some 0.
Proof. unfold refraction. rewrite sin_0, Rmult_0_r, Rabs_R0, (proj2 (Rltb_false 1 0)) by lra. now rewrite asin_0. Qed.
Lemma pf1_normal a g b : 0 < a -> 0 < b -> (forall m, g = Some m -> 0 < m) -> pf1 a g b 0 = through a g b.
Proof.
  intros Ha Hb Hg. unfold pf1, through. set (m := match g with Some n => n | None => a end).
  assert (Hm : 0 < m) by (unfold m; destruct g as [m'|]; [now apply Hg|exact Ha]).
  unfold theta_inside. rewrite refraction_normal. unfold fresnel_trans1. rewrite !refl_normal by assumption. cbn [fst snd].
  rewrite <- !trans_normal by assumption. pose proof (normal_R_range m b Hm Hb). pose proof (normal_R_range m a Hm Ha). pose proof EPS_pos.
  field. split; nra.
Qed.
Lemma through_range a g b : 0 < a -> 0 < b -> (forall m, g = Some m -> 0 < m) -> 0 < through a g b <= 1.
Proof.
  intros Ha Hb Hg. pose proof (pf1_bounds a g b 0 Ha Hg Hb) as B. rewrite pf1_normal in B by assumption.
  split; [|apply Rlt_le, B; pose proof PI_RGT_0; lra].
  unfold through. set (m := match g with Some n => n | None => a end).
  assert (Hm : 0 < m) by (unfold m; destruct g as [m'|]; [now apply Hg|exact Ha]).
  assert (HT : forall x y, 0 < x -> 0 < y -> 0 < normal_T x y).
  { intros x y Hx Hy. unfold normal_T. apply Rdiv_lt_0_compat; [|apply pow_lt; lra]. repeat apply Rmult_lt_0_compat; lra. }
  pose proof (normal_R_range m b Hm Hb). pose proof (normal_R_range m a Hm Ha). pose proof EPS_pos.
  apply Rdiv_lt_0_compat; [apply Rmult_lt_0_compat; apply HT; assumption|]. nra.
Qed.

(** ** The fields of the answer *)
Lemma combine_maps {A B D} (f : A -> B) (g : A -> D) l : combine (map f l) (map g l) = map (fun a => (f a, g a)) l.
Proof. induction l as [|a l IH]; cbn; congruence. Qed.

Section View.
Variables (P : params).
Hypothesis Hk1 : p_kz0rot P = None.
Hypothesis Hk2 : p_kz0refl P = None.
Lemma view_fields v o : view_result P false v = Ok (Some o) ->
  o_trans_i o = map v_t v /\ o_trans_pass o = map (fun a => c_tp P false a / INR (length v)) v.
Proof.
  intros H. unfold view_result in H. rewrite Hk1, Hk2, enter_closed in H by assumption.
  destruct (bad_in P false v); [discriminate|].
  destruct (negb false && existsb past (map (fun a => nan_to_num (v_in P a)) v))%bool; [discriminate|]. cbn [bind] in H.
  rewrite exit_closed in H.
  destruct (existsb past (map v_ar v) || existsb past (map v_at v))%bool; [discriminate|]. cbn [bind] in H.
  match type of H with match ?d with _ => _ end = _ => destruct d as [[[[r t] rp] tp]|]; [|discriminate] end.
  apply L_rough.Ok_inj in H. apply (f_equal (fun x => match x with Some y => y | None => o end)) in H. subst o.
  cbn [o_trans_i o_trans_pass x_trans_pass]. rewrite map_map. auto.
Qed.
Definition c_direct (n : R) (a : view) : R := if Nat.eqb (v_t a) 1 then c_tp P false a / n else 0.
Lemma direct_view v : 0 < p_nmedium P -> 0 < choose_n_tir P ->
  (forall m, p_nfront P = Some m -> 0 < m) -> (forall m, p_nback P = Some m -> 0 < m) ->
  (forall a, In a v -> wview a) -> bad_in P false v = false -> bad_angle P false v = false ->
  direct_fraction (view_result P false v) = fold_right Rplus 0 (map (c_direct (INR (length v))) v).
Proof.
  intros Hm Ht Hf Hb Hw B1 B2. pose proof (answer_closed P false Hk1 Hk2 v) as A. rewrite B1, B2 in A.
  destruct (view_result P false v) as [[o|]|e] eqn:E.
  - destruct (view_fields v o E) as [E1 E2]. unfold direct_fraction. rewrite E1, E2, combine_maps, map_map. reflexivity.
  - cbn [answer] in A. destruct (bad_known P false v) eqn:B3; [|discriminate].
    unfold bad_known in B3. destruct (p_boundary P); [|discriminate]. apply Reqb_true in B3. unfold c_known in B3.
    cbn [direct_fraction].
    assert (Z : forall l, (forall a, In a l -> In a v) -> 0 <= total (map (fun a => c_ab P false a + c_rp P false a + c_tp P false a) l)
       /\ (total (map (fun a => c_ab P false a + c_rp P false a + c_tp P false a) l) = 0 -> fold_right Rplus 0 (map (c_direct (INR (length v))) l) = 0)).
    { induction l as [|a l IH]; intros Hl; cbn [map total fold_right]; [lra|].
      destruct (c_range P false v Hm Ht Hf Hb B2 a (Hl a (or_introl eq_refl)) (Hw a (Hl a (or_introl eq_refl)))) as (R1 & R2 & _ & _ & _ & R3 & _).
      destruct IH as [I1 I2]; [intros; apply Hl; now right|]. split; [lra|]. intros H. rewrite I2 by lra.
      assert (c_tp P false a = 0) as Z by lra. unfold c_direct. rewrite Z. destruct (Nat.eqb (v_t a) 1); unfold Rdiv; ring. }
    symmetry. now apply Z.
  - cbn [answer] in A. destruct (bad_known P false v); discriminate.
Qed.
End View.

(** ** Runs at normal incidence *)
Definition normal_traj (nev : nat) (mu mua : R) (D : draws) (p : vec) (i : nat) : traj :=
  let dirs := map (scat_dir ez (d_ang D i)) (seq 0 nev) in
  mk_traj (move (p :: repeat vzero nev) dirs (steps_of nev mu D i)) dirs (absorb mua (repeat 1 nev) (steps_of nev mu D i)).

Section Run.
Variables (nev ntraj : nat) (spot pmin pmax mu : R) (P : params) (D : draws).
Hypothesis (Hn : (0 < nev)%nat) (Hmu : 0 < mu) (Hmua : 0 <= p_muabs P) (Hu : forall n i, 0 <= d_u D n i < 1).
Definition T (i : nat) : traj := normal_traj nev mu (p_muabs P) D (d_l0 D i * spot, d_l1 D i * spot, 0) i.
Local Notation s i := (step_of mu (d_u D 0 i)).

Lemma normal_trajectories : bind (initialize_film nev ntraj spot None None None 0 0 pmin pmax (p_nmedium P) (p_nsample P) (d_l0 D) (d_l1 D) (d_l2 D) (d_l3 D))
    (trajectories nev ntraj mu (p_muabs P) D) = Ok (Some (map T (seq 0 ntraj))).
Proof.
  unfold initialize_film. cbv zeta. cbn [bind].
  rewrite (map_ext_in _ (fun i => ((d_l0 D i * spot, d_l1 D i * spot, 0), Some ez, repeat 1 nev))).
  2:{ intros i Hi. f_equal. f_equal. replace (uniform 0 0 (d_l2 D i)) with 0 by (unfold uniform; ring). apply entry_normal. }
  unfold trajectories. rewrite L_montecarlo.sample_step_single by lra. cbn [bind].
  rewrite (run_trajs_fun nev (p_muabs P) _ _ (fun i => (d_l0 D i * spot, d_l1 D i * spot, 0)) (fun _ => ez)) by exact Hn.
  do 2 f_equal. apply map_ext_in. intros i Hi. apply in_seq in Hi. cbv zeta. rewrite column_steps by lia. reflexivity.
Qed.
Lemma normal_run : film_run nev ntraj spot 0 0 pmin pmax mu P D = calc_refl_trans 22 (d_rang D) (d_rstep D) P false 0 (map T (seq 0 ntraj)).
Proof.
  pose proof normal_trajectories as H. unfold film_run.
  destruct (initialize_film _ _ _ _ _ _ _ _ _ _ _ _ _ _ _ _) as [st|e]; [|discriminate]. cbn [bind] in H |- *. rewrite H. reflexivity.
Qed.
Lemma T_ok i : (i < ntraj)%nat -> wf_len (T i) /\ dirs_ok (T i) /\ col_ok 1 (T i).
Proof.
  intros Hi. pose proof normal_trajectories as H.
  unfold initialize_film in H. cbv zeta in H. cbn [bind] in H.
  rewrite (map_ext_in _ (fun i => ((d_l0 D i * spot, d_l1 D i * spot, 0), Some ez, repeat 1 nev))) in H.
  2:{ intros j Hj. f_equal. f_equal. replace (uniform 0 0 (d_l2 D j)) with 0 by (unfold uniform; ring). apply entry_normal. }
  destruct (trajectories_ok nev ntraj mu (p_muabs P) D (map (fun i => ((d_l0 D i * spot, d_l1 D i * spot, 0), Some ez, repeat 1 nev)) (seq 0 ntraj))
     (fun _ _ k => k = ez) Hn Hmu Hu Hmua) as (T' & E & HT).
  - now rewrite map_length, seq_length.
  - intros j st Hj. apply nth_error_In in Hj. apply in_map_iff in Hj. destruct Hj as (q & <- & _). eauto.
  - rewrite H in E. assert (E' : map T (seq 0 ntraj) = map T' (seq 0 ntraj)) by congruence.
    assert (E2 : T i = T' i).
    { apply (f_equal (fun l => nth i l (mk_traj [] [] []))) in E'. 
      rewrite (nth_indep (map T (seq 0 ntraj)) _ (T 0%nat)) in E' by (rewrite map_length, seq_length; exact Hi).
      rewrite (nth_indep (map T' (seq 0 ntraj)) _ (T' 0%nat)) in E' by (rewrite map_length, seq_length; exact Hi).
      rewrite !map_nth, !seq_nth in E' by exact Hi. exact E'. }
    rewrite E2. destruct (HT i Hi) as (p & k & Hk & W & _ & _ & Du & Dc & _). subst k. split; [exact W|]. split; [|exact Dc].
    apply Du. unfold unit, ez, vlen, dot. cbn [vx vy vz]. ring.
Qed.
Lemma T_first i : vz (nth 0 (t_pos (T i)) vzero) = 0 /\ vz (nth 1 (t_pos (T i)) vzero) = s i
  /\ nth 0 (t_dir (T i)) vzero = ez /\ nth 0 (t_w (T i)) 0 = exp (- (p_muabs P * s i)).
Proof.
  unfold T, normal_traj. cbn [t_pos t_dir t_w]. destruct nev as [|n]; [lia|]. unfold steps_of. cbn [seq map repeat].
  change (scat_dir ez (d_ang D i) 0) with ez. split; [|split; [|split]].
  - unfold move. cbn. ring.
  - unfold move. cbn. ring.
  - reflexivity.
  - unfold absorb, cumsum. cbn. rewrite Rplus_0_l. ring.
Qed.

Hypothesis (Hb : p_boundary P = film) (Hr : p_run P = false) (Hg : p_gonio P = None) (Hz : p_zlow P = 0)
  (Hk1 : p_kz0rot P = None) (Hk2 : p_kz0refl P = None)
  (Hth : 0 < p_thickness P) (Hm : 0 < p_nmedium P <= choose_n_tir P)
  (Hf : forall m, p_nfront P = Some m -> 0 < m) (Hbk : forall m, p_nback P = Some m -> 0 < m).
Local Notation nt := (choose_n_tir P).
Local Notation nm := (p_nmedium P).

Lemma steep_ez : steep nt nm (vz ez).
Proof. unfold steep, ez. cbn [vz snd fst]. replace (1 - 1 ^ 2) with 0 by ring. rewrite sqrt_0, Rmult_0_r. lra. Qed.
Lemma T_exit i : (i < ntraj)%nat -> v_t (film_view P (T i)) = 1%nat <-> p_thickness P <= s i.
Proof.
  intros Hi. destruct (T_ok i Hi) as (W & Dk & _). destruct (T_first i) as (Z0 & Z1 & K0 & _).
  assert (L0 : (0 < length (t_dir (T i)))%nat) by apply W.
  assert (S0 : 0 <= s i) by (apply L_montecarlo.step_nonneg; [exact Hmu|apply Hu]).
  unfold film_view. cbn [v_t]. rewrite Hb, Hz. split; intros H.
  - destruct (find_valid_exits nt nm (p_thickness P) 0 film (T i)) as [[ps ng] ti] eqn:He.
    destruct (trajectory_outcome _ _ _ _ _ _ _ _ _ W He) as (r & tt & st & Hev & Ho). rewrite Hev in H. cbn [i_trans] in H. subst tt.
    pose proof (film_exit_characterised nt nm (p_thickness P) 0 (T i) ps ng ti 0 0 W Dk ltac:(lra) Hm He L0) as X.
    cbn zeta in X. rewrite Z0 in X. destruct X as [Hp _]; [unfold in_slab; lra|].
    destruct Ho as [(_ & _ & _ & E & _)|[(k & _ & _ & _ & _ & E & _)|(k & F & Pk & _ & _ & E & _)]]; try discriminate.
    assert (k = 0%nat) as -> by lia. destruct (proj1 Hp Pk) as [_ [[_ U]|[O _]]]; [rewrite Z1 in U; lra|discriminate].
  - destruct (first_exit_physical nt nm (p_thickness P) (T i) 0 W Dk Hth ltac:(lra) L0) as [_ X].
    + intros j Hj. replace j with 0%nat by lia. rewrite Z0. lra.
    + rewrite K0. apply steep_ez.
    + rewrite Z1 in X. destruct (X H) as (ti & E). rewrite E. reflexivity.
Qed.
Lemma film_angle_ez : film_angle 1 = 0.
Proof. unfold film_angle. rewrite Rabs_R1. apply acos_1. Qed.
Lemma T_in i : v_in P (film_view P (T i)) = Some 0.
Proof.
  unfold v_in, film_view. cbn [v_first]. rewrite Hb. unfold film_exit_angle. cbn [select_col].
  replace (nth 0 (map vz (t_dir (T i))) 0) with 1.
  - rewrite film_angle_ez, refraction_normal. cbn [option_map]. rewrite cos_0, film_angle_ez. reflexivity.
  - destruct (T_first i) as (_ & _ & K & _). change 0 with (vz vzero) at 1. rewrite map_nth, K. reflexivity.
Qed.
Lemma T_pass i : (i < ntraj)%nat -> p_thickness P <= s i ->
  c_tp P false (film_view P (T i)) = through nm (p_nfront P) nt * through nt (p_nback P) nm * exp (- (p_muabs P * s i)).
Proof.
  intros Hi H. pose proof (proj2 (T_exit i Hi) H) as E. unfold film_view in E. cbn [v_t] in E.
  unfold c_tp, c_tw, v_inc. rewrite T_in. cbn [nan_to_num]. unfold film_view. cbn [v_wt v_at]. rewrite E. unfold exit_angle. rewrite Hb.
  unfold film_exit_angle. cbn [select_col]. destruct (T_first i) as (_ & _ & K & W0). rewrite W0.
  assert (KZ : nth 0 (map vz (t_dir (T i))) 0 = 1) by (etransitivity; [exact (map_nth vz (t_dir (T i)) vzero 0)|]; rewrite K; reflexivity).
  rewrite KZ, film_angle_ez.
  rewrite !pf1_normal by (assumption || lra). ring.
Qed.
Lemma views_ok v : v = map (film_view P) (map T (seq 0 ntraj)) -> (forall a, In a v -> wview a) /\ bad_in P false v = false /\ bad_angle P false v = false.
Proof.
  intros ->. rewrite map_map. split; [|split].
  - intros a Ha. apply in_map_iff in Ha. destruct Ha as (i & <- & Hi). apply in_seq in Hi. apply film_view_ok; [exact Hg|]. apply (T_ok i). lia.
  - unfold bad_in. cbn [negb andb]. rewrite map_map. generalize (seq 0 ntraj). induction l as [|i l IH]; [reflexivity|].
    cbn [map existsb]. rewrite T_in. exact IH.
  - unfold bad_angle. cbn [negb andb]. rewrite !map_map.
    assert (A : forall f, (forall i, f i <= PI / 2) -> existsb past (map f (seq 0 ntraj)) = false).
    { intros f Hle. generalize (seq 0 ntraj). induction l as [|i l IH]; [reflexivity|]. cbn [map existsb]. rewrite IH.
      unfold past. rewrite (proj2 (Rltb_false (PI / 2) (f i))) by apply Hle. reflexivity. }
    assert (Fa : forall x, film_angle x <= PI / 2) by apply L_rough.film_angle_le.
    rewrite !A; [reflexivity| | |].
    + intros i. unfold film_view, exit_angle. cbn [v_at]. rewrite Hb. apply Fa.
    + intros i. unfold film_view, exit_angle. cbn [v_ar]. rewrite Hb. apply Fa.
    + intros i. rewrite T_in. cbn. pose proof PI_RGT_0. lra.
Qed.
Lemma direct_run : direct_fraction (film_run nev ntraj spot 0 0 pmin pmax mu P D)
  = fold_right Rplus 0 (map (fun i => if Rleb (p_thickness P) (s i)
      then through nm (p_nfront P) nt * through nt (p_nback P) nm * exp (- (p_muabs P * s i)) / INR ntraj else 0) (seq 0 ntraj)).
Proof.
  rewrite normal_run, crt_view by assumption. destruct (views_ok _ eq_refl) as (V1 & V2 & V3).
  rewrite direct_view; try assumption; try lra. rewrite !map_map, !map_length, seq_length. f_equal. apply map_ext_in. intros i Hi. apply in_seq in Hi.
  unfold c_direct. destruct (Rleb (p_thickness P) (s i)) eqn:E.
  - apply Rleb_true in E. rewrite (proj2 (T_exit i ltac:(lia)) E). cbn [Nat.eqb]. rewrite T_pass by (lia || exact E). reflexivity.
  - apply Rleb_false in E. destruct (Nat.eqb_spec (v_t (film_view P (T i))) 1) as [V|V]; [|reflexivity].
    apply T_exit in V; [lra|lia].
Qed.
Lemma run_some o i : film_run nev ntraj spot 0 0 pmin pmax mu P D = Ok (Some o) -> (i < ntraj)%nat ->
  (nth i (o_trans_i o) 0%nat = 1%nat <-> p_thickness P <= s i)
  /\ (p_thickness P <= s i -> nth i (o_trans_pass o) 0
        = through nm (p_nfront P) nt * through nt (p_nback P) nm * exp (- (p_muabs P * s i)) / INR ntraj).
Proof.
  intros H Hi. rewrite normal_run, crt_view in H by assumption. apply view_fields in H; try assumption. destruct H as [-> ->].
  rewrite !map_map, !map_length, seq_length. rewrite Properties_returned.nth_map_seq_n, Properties_returned.nth_map_seq_R by exact Hi.
  split; [now apply T_exit|]. intros E. now rewrite T_pass.
Qed.
End Run.

(** ** The mean over the first steps *)
Lemma mean_sum (h : R -> R) (I : R) n : is_RInt h 0 1 I ->
  is_mean n (fun t => fold_right Rplus 0 (map (fun i => h (t i)) (seq 0 n))) (INR n * I).
Proof.
  intros Hh. assert (K : forall n c, is_mean n (fun t => fold_right Rplus 0 (map (fun i => h (t i)) (seq 0 n)) + c) (INR n * I + c)).
  { clear n. induction n as [|n IH]; intros c; [intros t; cbn; ring|].
    exists (fun t => fold_right Rplus 0 (map (fun i => h (t i)) (seq 0 n)) + (I + c)). split.
    - intros t. set (A := fold_right Rplus 0 (map (fun i => h (t i)) (seq 0 n))).
      apply (is_RInt_ext (fun x => plus (h x) (A + c))).
      + intros x _. rewrite seq_S, map_app. cbn [map Nat.add].
        assert (E : forall l r, fold_right Rplus 0 (l ++ cons r nil) = fold_right Rplus 0 l + r) by (induction l as [|a l IHl]; intros r; cbn; [ring|rewrite IHl; ring]).
        rewrite E. unfold upd at 2. rewrite Nat.eqb_refl.
        rewrite (map_ext_in (fun i => h (upd t n x i)) (fun i => h (t i))).
        * fold A. change (h x + (A + c) = A + h x + c). ring.
        * intros i Hi. apply in_seq in Hi. unfold upd. destruct (Nat.eqb_spec i n); [lia|reflexivity].
      + pose proof (is_RInt_plus h (fun _ => A + c) 0 1 I _ Hh (is_RInt_const 0 1 (A + c))) as Q.
        refine (eq_ind _ (fun v => is_RInt (fun x => plus (h x) (A + c)) 0 1 v) Q _ _).
        change (I + (1 - 0) * (A + c) = A + (I + c)). ring.
    - rewrite S_INR. replace ((INR n + 1) * I + c) with (INR n * I + (I + c)) by ring. apply IH. }
  specialize (K n 0). rewrite Rplus_0_r in K. revert K. apply is_mean_ext. intros t. ring.
Qed.

(** Powers, with the value 0 at and below 0. *)
Definition pw (q x : R) : R := if Rltb 0 x then Rpower x q else 0.
Lemma pw_pos q x : 0 < x -> pw q x = Rpower x q.
Proof. intros H. unfold pw. now rewrite (proj2 (Rltb_true 0 x)) by exact H. Qed.
Lemma pw_0 q x : x <= 0 -> pw q x = 0.
Proof. intros H. unfold pw. now rewrite (proj2 (Rltb_false 0 x)) by exact H. Qed.
Lemma pw_near q eps : 0 < q -> 0 < eps -> exists del : posreal, forall h, Rabs h < del -> 0 <= pw q h < eps.
Proof.
  intros Hq He. exists (mkposreal (Rpower eps (/ q)) (exp_pos _)). intros h Hh. cbn [pos] in Hh. destruct (Rlt_dec 0 h) as [H|H].
  - rewrite pw_pos by exact H. rewrite Rabs_pos_eq in Hh by lra. split; [left; apply exp_pos|].
    replace eps with (Rpower (Rpower eps (/ q)) q).
    + unfold Rpower at 1 2. apply exp_increasing, Rmult_lt_compat_l; [exact Hq|]. now apply ln_increasing.
    + rewrite Rpower_mult, Rinv_l by lra. now apply Rpower_1.
  - rewrite pw_0 by lra. lra.
Qed.
Lemma pw_derive p x : 0 < p -> 0 <= x -> is_derive (fun x => pw (p + 1) x / (p + 1)) x (pw p x).
Proof.
  intros Hp [Hx|<-].
  - apply (is_derive_ext_loc (fun x => Rpower x (p + 1) / (p + 1))).
    + exists (mkposreal x Hx). intros y Hy. cbn [pos] in Hy. unfold ball in Hy; cbn in Hy. unfold AbsRing_ball, abs, minus, plus, opp in Hy; cbn in Hy.
      apply Rabs_def2 in Hy. now rewrite pw_pos by lra.
    + rewrite pw_pos by exact Hx. unfold Rpower. auto_derive; [lra|]. replace ((p + 1) * ln x) with (p * ln x + ln x) by ring. rewrite exp_plus, exp_ln by exact Hx. field. lra.
  - rewrite (pw_0 p 0) by lra. apply is_derive_Reals. intros eps He. destruct (pw_near p eps Hp He) as (del & H). exists del. intros h Hh Hd.
    rewrite Rplus_0_l, (pw_0 (p + 1) 0) by lra. specialize (H h Hd). destruct (Rlt_dec 0 h) as [L|L].
    + assert (E : pw (p + 1) h = pw p h * h) by (rewrite !pw_pos by exact L; rewrite Rpower_plus, Rpower_1 by exact L; reflexivity).
      rewrite E. replace ((pw p h * h / (p + 1) - 0 / (p + 1)) / h - 0) with (pw p h / (p + 1)) by (field; lra).
      rewrite Rabs_pos_eq; [apply Rlt_div_l; nra|]. apply Rmult_le_pos; [lra|]. left. apply Rinv_0_lt_compat. lra.
    + rewrite pw_0 by lra. replace ((0 / (p + 1) - 0 / (p + 1)) / h - 0) with 0 by (field; lra). now rewrite Rabs_R0.
Qed.
Lemma pw_continuous p x : 0 < p -> 0 <= x -> continuous (pw p) x.
Proof.
  intros Hp [Hx|<-].
  - apply (continuous_ext_loc _ (fun x => Rpower x p)).
    + exists (mkposreal x Hx). intros y Hy. cbn [pos] in Hy. unfold ball in Hy; cbn in Hy. unfold AbsRing_ball, abs, minus, plus, opp in Hy; cbn in Hy.
      apply Rabs_def2 in Hy. now rewrite pw_pos by lra.
    + apply (ex_derive_continuous (fun x => Rpower x p) x). unfold Rpower. auto_derive. lra.
  - apply filterlim_locally. intros eps. destruct (pw_near p eps Hp (cond_pos eps)) as (del & H). exists del. intros y Hy.
    unfold ball in *; cbn in *. unfold AbsRing_ball, abs, minus, plus, opp in *; cbn in *. rewrite Ropp_0, Rplus_0_r in Hy.
    rewrite (pw_0 p 0), Ropp_0, Rplus_0_r by lra. specialize (H y Hy). rewrite Rabs_pos_eq; lra.
Qed.
Lemma power_integral p b : 0 <= p -> 0 < b -> is_RInt (fun y => Rpower y p) 0 b (Rpower b (p + 1) / (p + 1)).
Proof.
  intros [Hp|<-] Hb.
  - apply (is_RInt_ext (pw p)).
    + rewrite Rmin_left, Rmax_right by lra. intros x Hx. apply pw_pos. lra.
    + assert (Q : is_RInt (pw p) 0 b (minus (pw (p + 1) b / (p + 1)) (pw (p + 1) 0 / (p + 1)))).
      { apply (is_RInt_derive (fun x => pw (p + 1) x / (p + 1)) (pw p)); rewrite Rmin_left, Rmax_right by lra; intros x Hx; [apply pw_derive|apply pw_continuous]; lra. }
      refine (eq_ind _ (fun v => is_RInt (pw p) 0 b v) Q _ _). rewrite (pw_pos _ b Hb), (pw_0 _ 0) by lra.
      change (Rpower b (p + 1) / (p + 1) + - (0 / (p + 1)) = Rpower b (p + 1) / (p + 1)). field. lra.
  - apply (is_RInt_ext (fun _ => 1)).
    + rewrite Rmin_left, Rmax_right by lra. intros x Hx. rewrite Rpower_O by lra. reflexivity.
    + refine (eq_ind _ (fun v => is_RInt (fun _ => 1) 0 b v) (is_RInt_const 0 b 1) _ _).
      rewrite Rplus_0_l, Rpower_1 by exact Hb. change ((b - 0) * 1 = b / 1). field.
Qed.

(** The integral of the weight over the draws that cross a depth d. *)
Lemma crossing_integral mu a d c : 0 < mu -> 0 <= a -> 0 <= d ->
  is_RInt (fun u => if Rleb d (step_of mu (frac_part u)) then c * exp (- (a * step_of mu (frac_part u))) else 0) 0 1
    (c * (mu / (mu + a)) * exp (- ((mu + a) * d))).
Proof.
  intros Hmu Ha Hd. set (u0 := 1 - exp (- (mu * d))).
  assert (E0 : 0 < exp (- (mu * d)) <= 1).
  { split; [apply exp_pos|]. rewrite <- exp_0. destruct (Req_dec (mu * d) 0) as [->|N]; [rewrite Ropp_0; lra|].
    left. apply exp_increasing. assert (0 <= mu * d) by (apply Rmult_le_pos; lra). lra. }
  assert (Fr : forall x, 0 < x < 1 -> frac_part x = x).
  { intros x Hx. unfold frac_part. rewrite (Int_part_unique x 0) by lra. lra. }
  assert (St : forall x, 0 < x < 1 -> (d <= step_of mu x <-> u0 <= x)).
  { intros x Hx. unfold step_of, u0. split; intros H.
    - apply (Rmult_le_compat_r mu) in H; [|lra]. unfold Rdiv in H. rewrite Rmult_assoc, Rinv_l, Rmult_1_r in H by lra.
      assert (L1 : ln (1 - x) <= - (mu * d)) by lra.
      assert (L : exp (ln (1 - x)) <= exp (- (mu * d))) by (destruct (Rle_lt_or_eq_dec _ _ L1) as [L| ->]; [left; now apply exp_increasing|lra]).
      rewrite exp_ln in L by lra. lra.
    - apply (Rmult_le_reg_r mu); [lra|]. unfold Rdiv. rewrite Rmult_assoc, Rinv_l, Rmult_1_r by lra.
      assert (L : ln (1 - x) <= ln (exp (- (mu * d)))) by (apply Rcomplements.ln_le; lra).
      rewrite ln_exp in L. lra. }
  assert (Hu0 : 0 <= u0 < 1) by (unfold u0; lra).
  set (f := fun u : R => if Rleb d (step_of mu (frac_part u)) then c * exp (- (a * step_of mu (frac_part u))) else 0).
  assert (Q : is_RInt f 0 1 (plus (scal (u0 - 0) 0) (scal c (scal (-1) (opp (Rpower (-1 * u0 + 1) (a / mu + 1) / (a / mu + 1))))))).
  - assert (Q1 : is_RInt f 0 u0 (scal (u0 - 0) 0)).
    { apply (is_RInt_ext (fun _ => 0)); [|apply (is_RInt_const 0 u0 0)].
      rewrite Rmin_left, Rmax_right by lra. intros x Hx. unfold f. rewrite Fr by lra.
      destruct (Rleb d (step_of mu x)) eqn:E; [|reflexivity]. apply Rleb_true in E. apply St in E; lra. }
    assert (Q0 : is_RInt (fun y => Rpower y (a / mu)) (-1 * 1 + 1) (-1 * u0 + 1) (Rpower (-1 * u0 + 1) (a / mu + 1) / (a / mu + 1))).
    { replace (-1 * 1 + 1) with 0 by ring. apply power_integral; [|lra].
      apply Rmult_le_pos; [exact Ha|]. left. now apply Rinv_0_lt_compat. }
    pose proof (is_RInt_swap _ _ _ _ Q0) as Q2.
    pose proof (is_RInt_scal _ u0 1 c _ (is_RInt_scal _ u0 1 (-1) _ (is_RInt_comp_lin (fun y => Rpower y (a / mu)) (-1) 1 u0 1 _ Q2))) as Q3.
    assert (Q4 : is_RInt f u0 1 (scal c (scal (-1) (opp (Rpower (-1 * u0 + 1) (a / mu + 1) / (a / mu + 1)))))).
    { revert Q3. apply is_RInt_ext. rewrite Rmin_left, Rmax_right by lra. intros x Hx. unfold f. rewrite Fr by lra.
      rewrite (proj2 (Rleb_true d (step_of mu x))) by (apply St; lra).
      change (c * (-1 * (-1 * Rpower (-1 * x + 1) (a / mu))) = c * exp (- (a * step_of mu x))).
      replace (-1 * x + 1) with (1 - x) by ring. replace (Rpower (1 - x) (a / mu)) with (exp (- (a * step_of mu x))); [ring|].
      unfold Rpower, step_of. f_equal. field. lra. }
    exact (is_RInt_Chasles f 0 u0 1 _ _ Q1 Q4).
  - refine (eq_ind _ (fun v => is_RInt f 0 1 v) Q _ _).
    replace (-1 * u0 + 1) with (exp (- (mu * d))) by (unfold u0; ring). unfold Rpower. rewrite ln_exp.
    replace ((a / mu + 1) * - (mu * d)) with (- ((mu + a) * d)) by (field; lra).
    change ((u0 - 0) * 0 + c * (-1 * - (exp (- ((mu + a) * d)) / (a / mu + 1))) = c * (mu / (mu + a)) * exp (- ((mu + a) * d))). field. lra.
Qed.

