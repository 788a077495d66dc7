(** Lemmas for C168. *)
From Coq Require Import Lra Lia Psatz Reals List FunctionalExtensionality.
From Verif Require Import Num Spec Spec_scat Spec_mean Spec_detector Spec_meta Spec_direct Spec_estimate Spec_diffuse Spec_later Spec_enough Spec_leave Spec_leaveball M_init M_montecarlo M_detector M_simulation M_scat
  L_num L_sampling L_montecarlo L_montecarlo2 L_mean L_periodic L_local L_local2 L_sphere_exits L_outcomes L_meta L_meta2 L_meta3 L_meta4 L_pool L_simulation L_estimate L_single L_diffuse L_exits L_enough L_later L_thin L_leave.
From Coquelicot Require Import Coquelicot.
Import ListNotations.
Open Scope R_scope.
Ltac rring := match goal with |- @eq _ ?l ?r => change (@eq R l r) end; ring.

(** A function that is 0 except at finitely many places has integral 0. *)
Lemma null_int (f : R -> R) (l : list R) : forall a b, a <= b -> (forall x, a < x < b -> ~ In x l -> f x = 0) -> is_RInt f a b 0.
Proof.
  induction l as [|y l IH]; intros a b Hab H.
  - apply (is_RInt_ext (fun _ => 0)).
    + rewrite Rmin_left, Rmax_right by lra. intros x Hx. symmetry. apply H; [lra|intros []].
    + pose proof (is_RInt_const (V := R_NormedModule) a b 0) as Q. refine (eq_ind _ (fun v => is_RInt (fun _ : R => 0) a b v) Q _ _). change ((b - a) * 0 = 0). ring.
  - destruct (Rlt_dec a y) as [L1|L1]; [destruct (Rlt_dec y b) as [L2|L2]|].
    + pose proof (is_RInt_Chasles f a y b 0 0 (IH a y ltac:(lra) ltac:(intros x Hx Hn; apply H; [lra|intros [E|E]; [lra|now apply Hn]]))
        (IH y b ltac:(lra) ltac:(intros x Hx Hn; apply H; [lra|intros [E|E]; [lra|now apply Hn]]))) as Q.
      refine (eq_ind _ (fun v => is_RInt f a b v) Q _ _). change (0 + 0 = 0). ring.
    + apply IH; [exact Hab|]. intros x Hx Hn. apply H; [exact Hx|]. intros [E|E]; [lra|now apply Hn].
    + apply IH; [exact Hab|]. intros x Hx Hn. apply H; [exact Hx|]. intros [E|E]; [lra|now apply Hn].
Qed.
Lemma total_zero {A} (f : A -> R) l : (forall a, In a l -> f a = 0) -> total (map f l) = 0.
Proof. induction l as [|a l IH]; intros H; [reflexivity|]. cbn [map total]. rewrite H by now left. rewrite IH by (intros; apply H; now right). ring. Qed.

(** 1 if the direction is horizontal or vertical. *)
Definition special (z : R) : R := z * (1 - z ^ 2).
Definition flat_at (z : R) : R := if Reqb (special z) 0 then 1 else 0.
Lemma flat_at_01 z : 0 <= flat_at z <= 1.
Proof. unfold flat_at. destruct (Reqb (special z) 0); lra. Qed.
Lemma flat_at_no z : special z <> 0 -> flat_at z = 0.
Proof. intros H. unfold flat_at. now rewrite (proj2 (Reqb_false (special z) 0)). Qed.

Section Table.
Variables (p : list R) (lo : R).
Hypothesis (Hlo : 0 <= lo <= PI) (Hp : List.Forall (fun x => 0 <= x) p) (Ht : 0 < total (map (angle_weight p lo) (seq 0 (length p)))).

Lemma flat_null z : special z <> 0 -> -1 <= z <= 1 -> is_RInt (after_scattering p lo flat_at z) 0 1 0.
Proof.
  intros Nz Hz. assert (P3 : 0 < PI) by apply PI_RGT_0.
  set (kp := fun v i => (v - z * cos (grid lo PI (length p) i)) / (sqrt (1 - z ^ 2) * sin (grid lo PI (length p) i))).
  apply (null_int _ (flat_map (fun v => map (fun i => acos (kp v i) / (2 * PI)) (seq 0 (length p)) ++ map (fun i => 1 - acos (kp v i) / (2 * PI)) (seq 0 (length p)))
    (cons 0 (cons 1 (cons (-1) nil))))); [lra|].
  intros x Hx Hn. unfold after_scattering, average. apply total_zero. intros i Hi.
  pose proof Hi as Hi'. apply in_seq in Hi'.
  rewrite flat_at_no; [ring|]. set (th := grid lo PI (length p) i) in *. set (r := sqrt (1 - z ^ 2) * sin th) in *. intros E0. set (u := z * cos th + r * cos (2 * PI * x)) in *.
  assert (Nz1 : z <> 0 /\ z ^ 2 <> 1) by (unfold special in Nz; split; intros E; apply Nz; rewrite E; ring).
  assert (Sq : 0 < sqrt (1 - z ^ 2)) by (apply sqrt_lt_R0; nra).
  destruct (Req_dec (sin th) 0) as [S0|S0].
  - assert (Eu : u = z * cos th) by (unfold u, r; rewrite S0; ring). pose proof (sin2_cos2 th) as S2. unfold Rsqr in S2. rewrite S0 in S2.
    assert (U2 : u ^ 2 = z ^ 2) by (rewrite Eu; nra).
    apply Nz. unfold special in *. apply Rmult_integral in E0. rewrite U2 in E0. destruct E0 as [E0|E0]; [|rewrite E0; ring].
    exfalso. apply (proj1 Nz1). assert (z ^ 2 = 0) by (rewrite <- U2, E0; ring). nra.
  - assert (Nr : r <> 0) by (unfold r; apply Rmult_integral_contrapositive_currified; lra).
    assert (V : exists v, In v (cons 0 (cons 1 (cons (-1) nil))) /\ u = v).
    { unfold special in E0. apply Rmult_integral in E0. destruct E0 as [E0|E0]; [exists 0; split; [now left|exact E0]|].
      assert (F : (1 - u) * (1 + u) = 0) by (rewrite <- E0; ring). apply Rmult_integral in F. destruct F as [F|F].
      - exists 1. split; [right; now left|lra].
      - exists (-1). split; [right; right; now left|lra]. }
    destruct V as (v & Iv & Ev). apply Hn, in_flat_map. exists v. split; [exact Iv|].
    assert (Ek : cos (2 * PI * x) = kp v i).
    { unfold kp. fold th r. apply Rmult_eq_reg_l with r; [|exact Nr]. transitivity (v - z * cos th); [rewrite <- Ev; unfold u; ring|field; exact Nr]. }
    apply in_or_app. destruct (Rle_dec x (1 / 2)) as [L|L].
    + left. apply in_map_iff. exists i. split; [|exact Hi]. rewrite <- Ek, acos_cos by (split; nra). field. lra.
    + right. apply in_map_iff. exists i. split; [|exact Hi].
      replace (cos (2 * PI * x)) with (cos (2 * PI - 2 * PI * x)) in Ek by (rewrite cos_minus, cos_2PI, sin_2PI; ring).
      rewrite <- Ek, acos_cos by (split; nra). field. lra.
Qed.

(** ** A direction turned horizontal or vertical *)
Section Turned.
Variables (k0 : vec).
Hypothesis (Hk0 : vx k0 ^ 2 + vy k0 ^ 2 + vz k0 ^ 2 = 1).
Local Notation Zt := (Z (polar p lo) k0).
Local Notation Wt := (W (polar p lo) k0).
Definition turned_flat (t : nat -> R) (m : nat) : R := match m with O => flat_at (Zt t 1) | S _ => (1 - flat_at (Zt t m)) * flat_at (Zt t (S m)) end.
Lemma turned_flat_01 t m : 0 <= turned_flat t m <= 1.
Proof. destruct m as [|m]; cbn [turned_flat]; [apply flat_at_01|]. pose proof (flat_at_01 (Zt t (S m))). pose proof (flat_at_01 (Zt t (S (S m)))). nra. Qed.
Lemma turned_flat_dep m : dep (3 * m + 1) (fun t => turned_flat t m).
Proof.
  intros t t' H. destruct m as [|m]; cbn [turned_flat].
  - rewrite (Z_dep (polar p lo) k0 0 t t') by (intros; apply H; lia). reflexivity.
  - rewrite (Z_dep (polar p lo) k0 m t t') by (intros; apply H; lia). rewrite (Z_dep (polar p lo) k0 (S m) t t') by (intros; apply H; lia). reflexivity.
Qed.
(** The first scattering, for a given launch. *)
Lemma first_flat : is_mean 1 (fun t => turned_flat t 0) (average p lo (fun th => flat_at (- vx k0 * sin th + vz k0 * cos th))).
Proof.
  cbn [is_mean]. exists (fun _ => average p lo (fun th => flat_at (- vx k0 * sin th + vz k0 * cos th))). split; [|reflexivity].
  intros t. refine (is_RInt_ext _ _ 0 1 _ _ (polar_integral p lo Hlo Hp Ht (fun th => flat_at (- vx k0 * sin th + vz k0 * cos th)))). intros x _.
  cbn [turned_flat]. rewrite Z_S. change (3 * 0)%nat with 0%nat. rewrite upd_same. reflexivity.
Qed.
(** A later one. *)
Lemma later_flat m : is_mean (3 * S m + 1) (fun t => turned_flat t (S m)) 0.
Proof.
  replace (3 * S m + 1)%nat with (S (S (3 * m + 2))) by lia. cbn [is_mean].
  exists (fun t => (1 - flat_at (Zt t (S m))) * average p lo (fun th => flat_at (- vx (Wt t (S m)) * sin th + vz (Wt t (S m)) * cos th))). split.
  - intros t. set (i := S (3 * m + 2)). assert (Ei : i = (3 * S m)%nat) by (unfold i; lia).
    pose proof (is_RInt_scal _ 0 1 (1 - flat_at (Zt t (S m))) _ (polar_integral p lo Hlo Hp Ht (fun th => flat_at (- vx (Wt t (S m)) * sin th + vz (Wt t (S m)) * cos th)))) as Q.
    refine (is_RInt_ext _ _ 0 1 _ _ Q). intros x _.
    assert (U : forall n, (n < i)%nat -> upd t i x n = t n) by (intros n Hn; apply upd_other; lia).
    match goal with |- scal ?v ?w = _ => change (scal v w) with (v * w) end. cbn [turned_flat].
    rewrite (Z_dep (polar p lo) k0 m (upd t i x) t) by (intros; apply U; lia). rewrite (Z_S (polar p lo) k0 (upd t i x) (S m)).
    rewrite (W_dep (polar p lo) k0 (S m) (upd t i x) t) by (intros; apply U; lia). rewrite <- Ei, upd_same. reflexivity.
  - exists (fun _ => 0). split; [|apply is_mean_const]. intros t. set (i := (3 * m + 2)%nat).
    assert (EZ : forall x, Zt (upd t i x) (S m) = Zt t (S m)) by (intros x; apply Z_dep; intros n Hn; apply upd_other; unfold i; lia).
    assert (EW : forall x, Wt (upd t i x) (S m) = scatter1 (Wt t m) (polar p lo (t (3 * m)%nat)) (2 * PI * x)).
    { intros x. change (Wt (upd t i x) (S m)) with (scatter1 (Wt (upd t i x) m) (polar p lo (upd t i x (3 * m)%nat)) (2 * PI * upd t i x (3 * m + 2)%nat)).
      rewrite (W_dep (polar p lo) k0 m (upd t i x) t) by (intros n Hn; apply upd_other; unfold i; lia). rewrite (upd_other t i x (3 * m)%nat) by (unfold i; lia).
      unfold i. now rewrite upd_same. }
    destruct (Req_dec (special (Zt t (S m))) 0) as [E|E].
    + apply (is_RInt_ext (fun _ => 0)); [|apply (const_int 0)]. intros x _. rewrite EZ. unfold flat_at at 1. rewrite (proj2 (Reqb_true _ _)) by exact E. rring.
    + pose proof (flat_null _ E (Z_range (polar p lo) k0 Hk0 t (S m))) as Q. rewrite (Z_S (polar p lo) k0 t m) in Q.
      pose proof (after_scatter_gen p lo flat_at (Wt t m) (polar p lo (t (3 * m)%nat)) 0 (W_unit (polar p lo) k0 Hk0 t m) Q) as Q2.
      refine (is_RInt_ext _ _ 0 1 _ _ Q2). intros x _. rewrite EZ, EW, (flat_at_no _ E). rring.
Qed.
Lemma not_flat t m : special (vz k0) <> 0 -> (forall k, (k < m)%nat -> turned_flat t k = 0) -> forall k, (k <= m)%nat -> special (Zt t k) <> 0.
Proof.
  intros H0 H k. induction k as [|k IH]; intros Hk; [exact H0|]. pose proof (H k ltac:(lia)) as Q. specialize (IH ltac:(lia)). intros E.
  destruct k as [|k]; cbn [turned_flat] in Q; unfold flat_at in Q; rewrite ?E in Q.
  - rewrite (proj2 (Reqb_true 0 0)) in Q by reflexivity. lra.
  - rewrite (proj2 (Reqb_true 0 0)) in Q by reflexivity. rewrite (proj2 (Reqb_false _ _)) in Q by exact IH. lra.
Qed.
End Turned.
End Table.

(** ** Trajectories of an index-matched sphere *)
Lemma ball_distance r a b : 0 <= r -> in_sphere r a -> in_sphere r b -> forall s k, 0 <= s -> vx k ^ 2 + vy k ^ 2 + vz k ^ 2 = 1 ->
  vsub b a = vscale s k -> s <= 2 * r.
Proof.
  intros Hr Ha Hb s k Hs Hk E. unfold in_sphere in *. destruct a as [[x y] z], b as [[x' y'] z'], k as [[k1 k2] k3]. unfold vsub, vscale in E. cbn [vx vy vz fst snd] in *.
  injection E as E1 E2 E3.
  assert (S2 : s ^ 2 = (x' - x) ^ 2 + (y' - y) ^ 2 + (z' - z) ^ 2).
  { replace (x' - x) with (s * k1) by lra. replace (y' - y) with (s * k2) by lra. replace (z' - z) with (s * k3) by lra.
    transitivity (s ^ 2 * (k1 ^ 2 + k2 ^ 2 + k3 ^ 2)); [rewrite Hk; ring|ring]. }
  assert (Q : s ^ 2 <= (2 * r) ^ 2).
  { rewrite S2. pose proof (pow2_ge_0 (x' + x)). pose proof (pow2_ge_0 (y' + y)). pose proof (pow2_ge_0 (z' - r + (z - r))). nra. }
  destruct (Rle_dec s (2 * r)) as [L|L]; [exact L|exfalso]. nra.
Qed.
Section Ball.
Variables (nev : nat) (spot mu : R) (P : params) (D : draws).
Hypothesis (Hn : (0 < nev)%nat) (Hmu : 0 < mu) (Ha : 0 <= p_muabs P) (Hd : 0 < p_thickness P) (Hsp : 0 < spot <= p_thickness P)
  (Hb : p_boundary P = sphere) (Hp : plain P) (Hns : 0 < p_nmedium P) (Hm : p_nsample P = p_nmedium P) (HD : good_draws D).
Local Notation T i := (sp_traj nev spot mu P D i).
Definition ball_rho (i : nat) : R := sqrt (d_l0 D i) * spot / 2 / (p_thickness P / 2).
Lemma ball_rho_range i : 0 < ball_rho i < 1.
Proof.
  destruct HD as [G0 _]. specialize (G0 i). unfold ball_rho.
  assert (0 < sqrt (d_l0 D i) < 1) by (split; [apply sqrt_lt_R0; lra|rewrite <- sqrt_1; apply sqrt_lt_1_alt; lra]).
  split; [apply Rdiv_lt_0_compat; [apply Rmult_lt_0_compat; [nra|lra]|lra]|]. apply Rcomplements.Rlt_div_l; [lra|]. nra.
Qed.
Lemma ball_dir i : sp_dir spot P D i = (- (ball_rho i * cos (2 * PI * d_l1 D i)), - (ball_rho i * sin (2 * PI * d_l1 D i)), sqrt (1 - ball_rho i ^ 2)).
Proof.
  pose proof (ball_rho_range i) as Rr. destruct HD as [G0 _]. specialize (G0 i). unfold sp_dir. rewrite Hm. set (r := p_thickness P / 2). assert (Hr : 0 < r) by (unfold r; lra).
  pose proof (sphere_start_ok_l spot r (d_l0 D i) (d_l1 D i) Hr ltac:(unfold r; lra) ltac:(lra)) as (S1 & S2 & _).
  change (sphere_start_pos spot r (d_l0 D i) (d_l1 D i)) with (sp_pos spot P D i) in S1, S2.
  set (th := 2 * PI * d_l1 D i). assert (Sc : sin th ^ 2 + cos th ^ 2 = 1) by (pose proof (sin2_cos2 th) as Q; unfold Rsqr in Q; lra).
  set (q := sqrt (d_l0 D i) * spot / 2). assert (Eq : q = ball_rho i * r) by (unfold ball_rho, q; fold r; field; lra).
  assert (Ex : vx (sp_pos spot P D i) = q * cos th) by reflexivity. assert (Ey : vy (sp_pos spot P D i) = q * sin th) by reflexivity.
  assert (Hq : 0 < q) by (rewrite Eq; nra).
  rewrite (sphere_entry_no_contrast r (sp_pos spot P D i) (p_nmedium P) Hr Hns S1 S2).
  2: { rewrite Ex, Ey. replace ((q * cos th) ^ 2 + (q * sin th) ^ 2) with (q ^ 2 * (sin th ^ 2 + cos th ^ 2)) by ring. rewrite Sc. nra. }
  unfold vscale. rewrite Ex, Ey. cbn [vx vy vz fst snd].
  assert (Ez : vz (sp_pos spot P D i) = r - r * sqrt (1 - ball_rho i ^ 2)).
  { unfold sp_pos, sphere_start_pos. cbn [vz snd]. fold r th q. replace (r ^ 2 - (q * cos th) ^ 2 - (q * sin th) ^ 2) with (r ^ 2 * (1 - ball_rho i ^ 2)).
    - rewrite sqrt_mult by nra. rewrite <- Rsqr_pow2, sqrt_Rsqr by lra. reflexivity.
    - rewrite Eq. transitivity (r ^ 2 - ball_rho i ^ 2 * r ^ 2 * (sin th ^ 2 + cos th ^ 2)); [rewrite Sc; ring|ring]. }
  rewrite Ez, Eq. apply (f_equal2 pair); [apply (f_equal2 pair)|]; field; lra.
Qed.
Lemma ball_unit i : let k := sp_dir spot P D i in vx k ^ 2 + vy k ^ 2 + vz k ^ 2 = 1.
Proof.
  intros k. unfold k. rewrite ball_dir. cbn [vx vy vz fst snd]. pose proof (ball_rho_range i). rewrite <- (Rsqr_pow2 (sqrt _)), Rsqr_sqrt by nra.
  pose proof (sin2_cos2 (2 * PI * d_l1 D i)) as Q. rewrite !Rsqr_pow2 in Q.
  transitivity (ball_rho i ^ 2 * (sin (2 * PI * d_l1 D i) ^ 2 + cos (2 * PI * d_l1 D i) ^ 2) + 1 - ball_rho i ^ 2); [ring|rewrite Q; ring].
Qed.
Lemma ball_up i : 0 < vz (sp_dir spot P D i).
Proof. rewrite ball_dir. cbn [vz snd]. apply sqrt_lt_R0. pose proof (ball_rho_range i). nra. Qed.
(** Still inside, never horizontal: every step is at most the diameter. *)
Lemma ball_inside i : still (film_view P (T i)) <> 0 ->
  (forall k, (k < nev)%nat -> vz (scat_dir (sp_dir spot P D i) (d_ang D i) k) <> 0) ->
  forall k, (k < nev)%nat -> step_of mu (d_u D k i) <= p_thickness P.
Proof.
  intros Hs Hz k Hk. destruct HD as [G0 Gu].
  assert (R0 : (v_r (film_view P (T i)) + v_t (film_view P (T i)) = 0)%nat).
  { unfold still in Hs. destruct (Nat.eqb_spec (v_r (film_view P (T i)) + v_t (film_view P (T i))) 0) as [E|E]; [exact E|exfalso; apply Hs; reflexivity]. }
  destruct (made_ok nev (S i) mu (p_muabs P) D (sp_pos spot P D) (sp_dir spot P D) i) as [B1 _]; try assumption; [lia|].
  assert (Wf : wf_len (T i)) by apply B1.
  assert (Ld : length (t_dir (T i)) = nev) by (unfold sp_traj, made; cbn [t_dir]; now rewrite map_length, seq_length).
  assert (EK : forall k, (k < nev)%nat -> nth k (t_dir (T i)) vzero = scat_dir (sp_dir spot P D i) (d_ang D i) k).
  { intros m Hm'. unfold sp_traj, made. cbn [t_dir]. rewrite (nth_indep _ _ (scat_dir (sp_dir spot P D i) (d_ang D i) 0)) by (rewrite map_length, seq_length; exact Hm').
    rewrite map_nth, seq_nth by exact Hm'. reflexivity. }
  assert (Ent : choose_n_tir P = p_nmedium P).
  { unfold choose_n_tir. destruct Hp as (_ & _ & _ & -> & _). rewrite Hm, Rabs_pos_eq by lra. reflexivity. }
  assert (I0 : in_sphere (p_thickness P / 2) (nth 0 (t_pos (T i)) vzero)).
  { assert (E0 : nth 0 (t_pos (T i)) vzero = sp_pos spot P D i) by (change (vadd vzero (sp_pos spot P D i) = sp_pos spot P D i); destruct (sp_pos spot P D i) as [[x y] z]; unfold vadd, vzero; cbn [vx vy vz fst snd]; now rewrite !Rplus_0_l). rewrite E0. specialize (G0 i).
    destruct (sphere_start_ok_l spot (p_thickness P / 2) (d_l0 D i) (d_l1 D i) ltac:(lra) ltac:(lra) ltac:(lra)) as (S1 & _). unfold in_sphere. 
    change (sphere_start_pos spot (p_thickness P / 2) (d_l0 D i) (d_l1 D i)) with (sp_pos spot P D i) in S1. lra. }
  destruct (leave_or_stay (p_thickness P / 2) (T i) Wf I0) as [In|(m & Lv)].
  - assert (IA : forall m, (m <= nev)%nat -> in_sphere (p_thickness P / 2) (nth m (t_pos (T i)) vzero)).
    { intros [|m] Hm'; [exact I0|]. apply In. destruct Wf as (Lp & _). rewrite Ld in Lp. destruct (t_pos (T i)) as [|p0 rest] eqn:Ep; [cbn [length] in Lp; lia|]. cbn [tl nth]. apply nth_In. cbn [length] in Lp. lia. }
    replace (p_thickness P) with (2 * (p_thickness P / 2)) by field.
    apply (ball_distance (p_thickness P / 2) _ _ ltac:(lra) (IA k ltac:(lia)) (IA (S k) ltac:(lia)) _ (scat_dir (sp_dir spot P D i) (d_ang D i) k)).
    + apply L_montecarlo.step_nonneg; [exact Hmu|apply Gu].
    + clear Hk. induction k as [|k IH]; [apply ball_unit|]. apply scatter1_unit, IH.
    + rewrite <- (EK k Hk). unfold sp_traj, made. cbn [t_pos t_dir].
      match goal with |- context [move (?p :: ?rest) ?dirs ?step] => pose proof (move_step p rest dirs step k) as MS end.
      rewrite MS by (unfold steps_of; rewrite !map_length, !seq_length; lia). f_equal.
      unfold steps_of. rewrite (nth_indep _ 0 (step_of mu (d_u D 0 i))) by (rewrite map_length, seq_length; exact Hk).
      rewrite (map_nth (fun n => step_of mu (d_u D n i))), seq_nth by exact Hk. reflexivity.
  - exfalso. pose proof (leaves_matched (p_nmedium P) (p_thickness P) (p_zlow P) (T i) m Hd Hns Wf Lv) as (M1 & M2 & _).
    assert (Lm : (m < nev)%nat) by (rewrite <- Ld; apply Lv). rewrite (EK m Lm) in M1, M2. specialize (Hz m Lm).
    unfold film_view in R0. cbn [v_r v_t] in R0. rewrite Hb, Ent in R0.
    destruct (Rtotal_order (vz (scat_dir (sp_dir spot P D i) (d_ang D i) m)) 0) as [L|[L|L]]; [rewrite (M1 L) in R0|contradiction|rewrite (M2 L) in R0]; cbn in R0; lia.
Qed.
End Ball.

(** ** Runs *)
Lemma some_or_none (f : nat -> R) n : (forall k, (k < n)%nat -> f k = 0) \/ exists k, (k < n)%nat /\ f k <> 0.
Proof.
  induction n as [|n [IH|(k & Hk & N)]]; [left; intros; lia| |right; exists k; split; [lia|exact N]].
  destruct (Req_dec (f n) 0) as [E|E]; [left|right; exists n; split; [lia|exact E]]. intros k Hk. destruct (Nat.eq_dec k n) as [->|]; [exact E|apply IH; lia].
Qed.
Lemma total_has {A} (f : A -> R) l i : In i l -> (forall k, In k l -> 0 <= f k) -> f i <= total (map f l).
Proof.
  induction l as [|a l IH]; intros Hi H; [contradiction|]. cbn [map total]. pose proof (H a (or_introl eq_refl)) as Ha.
  assert (Hl : 0 <= total (map f l)) by (apply total_nonneg_map; intros; apply H; now right).
  destruct Hi as [->|Hi]; [lra|]. pose proof (IH Hi ltac:(intros; apply H; now right)). lra.
Qed.
Lemma mean_total {A} N (f : A -> (nat -> R) -> R) (v : A -> R) l : (forall m, In m l -> is_mean N (f m) (v m)) ->
  is_mean N (fun s => total (map (fun m => f m s) l)) (total (map v l)).
Proof.
  induction l as [|a l IH]; intros H; cbn [map total]; [apply is_mean_const|].
  apply (is_mean_plus N (f a)); [apply H; now left|apply IH; intros; apply H; now right].
Qed.

Section BallRuns.
Variables (p : list R) (lo : R).
Hypothesis (Hlo : 0 <= lo <= PI) (Hpp : List.Forall (fun x => 0 <= x) p) (Ht : 0 < total (map (angle_weight p lo) (seq 0 (length p)))).
Variables (n j : nat) (spot mu : R) (P : params) (D : draws).
Hypothesis (Hn : (0 < n)%nat) (Hmu : 0 < mu) (Ha : 0 <= p_muabs P) (Hd : 0 < p_thickness P) (Hsp : 0 < spot <= p_thickness P)
  (Hb : p_boundary P = sphere) (Hp : plain P) (Hns : 0 < p_nmedium P) (Hm : p_nsample P = p_nmedium P) (HD : good_draws D).
Local Notation E t := (with_launches p lo (S j) t D).
Local Notation rho0 i := (ball_rho spot P D i).
Definition launched (i : nat) (x : R) : vec := (- (rho0 i * cos (2 * PI * x)), - (rho0 i * sin (2 * PI * x)), sqrt (1 - rho0 i ^ 2)).
Local Notation num t i := (numbers_of (3 * S j + 1) t i).
Definition later_numbers (s : nat -> R) : nat -> R := fun k => s (S k).
Lemma E_good t : good_draws (E t).
Proof.
  destruct HD as [G0 Gu]. split; [exact G0|]. intros [|k] i; cbn [with_launches d_u]; [apply Gu|]. destruct (Nat.ltb k (S j)); [|apply Gu].
  destruct (base_fp (num t i (3 * k + 2)%nat)). lra.
Qed.
Lemma rho_range i : 0 < rho0 i < 1.
Proof. apply (ball_rho_range spot P D); assumption. Qed.
Lemma E_dir t i : sp_dir spot P (E t) i = launched i (num t i 0%nat).
Proof. exact (ball_dir spot P (E t) Hd Hsp Hns Hm (E_good t) i). Qed.
Lemma launched_unit i x : vx (launched i x) ^ 2 + vy (launched i x) ^ 2 + vz (launched i x) ^ 2 = 1.
Proof.
  unfold launched. cbn [vx vy vz fst snd]. pose proof (rho_range i). rewrite <- (Rsqr_pow2 (sqrt _)), Rsqr_sqrt by nra.
  pose proof (sin2_cos2 (2 * PI * x)) as Q. rewrite !Rsqr_pow2 in Q.
  transitivity (rho0 i ^ 2 * (sin (2 * PI * x) ^ 2 + cos (2 * PI * x) ^ 2) + 1 - rho0 i ^ 2); [ring|rewrite Q; ring].
Qed.
Lemma launched_up i x : 0 < vz (launched i x) < 1.
Proof.
  unfold launched. cbn [vz snd]. pose proof (rho_range i). split; [apply sqrt_lt_R0; nra|]. rewrite <- sqrt_1 at 2. apply sqrt_lt_1_alt. split; nra.
Qed.
Lemma launched_special i x : special (vz (launched i x)) <> 0.
Proof. pose proof (launched_up i x). unfold special. apply Rmult_integral_contrapositive_currified; apply Rgt_not_eq; nra. Qed.
Lemma same_ball_dir t i k : (k <= S j)%nat ->
  scat_dir (sp_dir spot P (E t) i) (d_ang (E t) i) k = W (polar p lo) (launched i (num t i 0%nat)) (later_numbers (num t i)) k.
Proof.
  induction k as [|k IH]; intros Hk; [apply E_dir|]. unfold W in *. cbn [scat_dir]. rewrite IH by lia. cbn [with_launches d_ang].
  rewrite (proj2 (Nat.ltb_lt k (S j))) by lia. rewrite (angle_split p lo Hlo Hpp Ht). cbn [fst snd]. unfold sang, later_numbers. cbn [fst snd].
  replace (3 * k + 1)%nat with (S (3 * k)) by lia. replace (3 * k + 3)%nat with (S (3 * k + 2)) by lia. reflexivity.
Qed.
Local Notation one := (fun _ : R => 1).
Definition bound (i : nat) (x : R) (u : nat -> R) : R :=
  Pr (polar p lo) (launched i x) mu (p_thickness P) (-1) one u j + total (map (turned_flat p lo (launched i x) u) (seq 0 (S j))).
Lemma ball_still_le t i : still (film_view P (sp_traj (S (S j)) spot mu P (E t) i)) <= bound i (num t i 0%nat) (later_numbers (num t i)).
Proof.
  unfold bound. set (s := num t i). set (u := later_numbers s). set (a := still _).
  pose proof (Pr_01 (polar p lo) (launched i (s 0%nat)) mu (p_thickness P) (-1) one u j) as P01.
  assert (T0 : forall k, 0 <= turned_flat p lo (launched i (s 0%nat)) u k) by (intros k; apply turned_flat_01).
  assert (S0 : 0 <= total (map (turned_flat p lo (launched i (s 0%nat)) u) (seq 0 (S j)))) by (apply total_nonneg_map; intros; apply T0).
  destruct (Req_dec a 0) as [->|Na]; [lra|].
  assert (A1 : a <= 1) by (unfold a, still; destruct (Nat.eqb _ _); lra).
  destruct (some_or_none (turned_flat p lo (launched i (s 0%nat)) u) (S j)) as [H0|(k & Hk & Nk)].
  - assert (Q : Pr (polar p lo) (launched i (s 0%nat)) mu (p_thickness P) (-1) one u j = 1); [|lra].
    assert (NF : forall k, (k < S (S j))%nat -> vz (scat_dir (sp_dir spot P (E t) i) (d_ang (E t) i) k) <> 0).
    { intros k Hk. rewrite same_ball_dir by lia. intros Z0.
      apply (not_flat p lo (launched i (s 0%nat)) u (S j) (launched_special i (s 0%nat)) H0 k ltac:(lia)). unfold Z. fold s. fold s in Z0. change (later_numbers s) with u in Z0. rewrite Z0. unfold special. ring. }
    pose proof (ball_inside (S (S j)) spot mu P (E t) ltac:(lia) Hmu Ha Hd Hsp Hb Hp Hns Hm (E_good t) i Na NF) as In.
    assert (Pj : forall m, (m <= j)%nat -> Pr (polar p lo) (launched i (s 0%nat)) mu (p_thickness P) (-1) one u m = 1); [|now apply Pj].
    induction m as [|m IH]; intros Hmj; [reflexivity|]. cbn [Pr]. rewrite IH by lia. unfold stays, stays_if.
    specialize (In (S (S m)) ltac:(lia)).
    change (d_u (E t) (S (S m)) i) with (if Nat.ltb (S m) (S j) then frac_part (s (3 * S m + 2)%nat) else d_u D (S (S m)) i) in In.
    rewrite (proj2 (Nat.ltb_lt (S m) (S j))) in In by lia. replace (3 * S m + 2)%nat with (S (3 * S m + 1)) in In by lia.
    change (s (S (3 * S m + 1))) with (u (3 * S m + 1)%nat) in In. rewrite (proj2 (Rltb_false (p_thickness P) _)) by lra.
    rewrite Bool.andb_false_r. ring.
  - assert (K1 : turned_flat p lo (launched i (s 0%nat)) u k = 1).
    { destruct k as [|k]; cbn [turned_flat] in *; unfold flat_at in *;
        repeat match goal with |- context [Reqb ?x ?y] => destruct (Reqb x y) end; lra. }
    pose proof (total_has (turned_flat p lo (launched i (s 0%nat)) u) (seq 0 (S j)) k ltac:(apply in_seq; lia) ltac:(intros; apply T0)). lra.
Qed.
Definition first_null (i : nat) (x : R) : R := average p lo (fun th => flat_at (- vx (launched i x) * sin th + vz (launched i x) * cos th)).
Lemma first_null_int i : is_RInt (first_null i) 0 1 0.
Proof.
  pose proof (rho_range i) as Rr. pose proof (launched_up i 0) as Up. unfold launched in Up. cbn [vz snd] in Up. set (c := sqrt (1 - rho0 i ^ 2)) in *.
  assert (C2 : c ^ 2 = 1 - rho0 i ^ 2) by (unfold c; rewrite <- Rsqr_pow2; apply Rsqr_sqrt; nra).
  assert (Cr : sqrt (1 - c ^ 2) = rho0 i) by (rewrite C2; replace (1 - (1 - rho0 i ^ 2)) with (Rsqr (rho0 i)) by (unfold Rsqr; ring); apply sqrt_Rsqr; lra).
  refine (is_RInt_ext _ _ 0 1 _ _ (flat_null p lo c ltac:(exact (launched_special i 0)) ltac:(split; nra))). intros x _. unfold after_scattering, first_null.
  f_equal. apply functional_extensionality. intros th. f_equal. unfold launched. cbn [vx vz fst snd]. fold c. rewrite Cr. ring.
Qed.
Lemma ball_mean :
  exists F, (forall t, total (map (fun i => still (film_view P (sp_traj (S (S j)) spot mu P (E t) i))) (seq 0 n)) / INR n <= F t)
    /\ is_mean (n * (3 * S j + 1)) F (ball_rate mu (p_thickness P) ^ j).
Proof.
  assert (HI : 0 < INR n) by now apply lt_0_INR.
  assert (HV : forall k th, vx k ^ 2 + vy k ^ 2 + vz k ^ 2 = 1 ->
    is_RInt (fun x => average p lo (fun th' => one (- vx (scatter1 k th (2 * PI * x)) * sin th' + vz (scatter1 k th (2 * PI * x)) * cos th'))) 0 1 (one (- vx k * sin th + vz k * cos th))).
  { intros k th _. apply (is_RInt_ext (fun _ => 1)); [|apply (const_int 1)]. intros x _. symmetry. apply average_const; assumption. }
  set (rate := ball_rate mu (p_thickness P) ^ j).
  assert (Er : rho mu (p_thickness P) 1 1 ^ j = rate) by (unfold rate, rho, kap, ball_rate; replace (mu * p_thickness P / 1) with (mu * p_thickness P) by field; now rewrite Rmult_1_r).
  set (g := fun i (x : R) (u : nat -> R) => G (polar p lo) (launched i x) mu (p_thickness P) (-1) 1 one one one 1 u j
    + total (map (fun m => turned_flat p lo (launched i x) u m) (seq 0 (S j)))).
  assert (Le : forall i x u, bound i x u <= g i x u).
  { intros i x u. unfold bound, g. apply Rplus_le_compat_r. apply Pr_le; try assumption; first [apply launched_unit|lra|intros z; pose proof (Rabs_pos z); lra]. }
  assert (Me : forall i, is_mean (3 * S j + 1) (fun s => g i (s 0%nat) (later_numbers s)) rate).
  { intros i. apply (mean_join 1 (3 * S j) _ (fun t => rate + total (map (fun m => match m with O => first_null i (t 0%nat) | S _ => 0 end) (seq 0 (S j))))).
    - intros t. apply (is_mean_ext _ (fun s => g i (t 0%nat) s)).
      + intros s. change (join 1 t s 0%nat) with (t 0%nat). f_equal. apply functional_extensionality. intros k. unfold later_numbers, join. cbn [Nat.ltb Nat.leb]. f_equal. lia.
      + unfold g. apply (is_mean_plus _ (fun s => G (polar p lo) (launched i (t 0%nat)) mu (p_thickness P) (-1) 1 one one one 1 s j)).
        * rewrite <- Er. apply (G_mean3 (polar p lo) (average p lo)); try assumption; first [apply polar_integral; assumption|apply launched_unit|lra|intros z; pose proof (Rabs_pos z); lra].
        * apply (mean_total (3 * S j) (fun m s => turned_flat p lo (launched i (t 0%nat)) s m)). intros m Hmj. apply in_seq in Hmj.
          replace (3 * S j)%nat with ((3 * S j - (3 * m + 1)) + (3 * m + 1))%nat by lia. apply mean_more; [apply turned_flat_dep|].
          destruct m as [|m]; [apply (first_flat p lo Hlo Hpp Ht)|apply (later_flat p lo Hlo Hpp Ht _ (launched_unit i (t 0%nat)))].
    - cbn [is_mean]. exists (fun _ => rate). split; [|reflexivity]. intros t.
      assert (Q : is_RInt (fun x => rate + first_null i x) 0 1 rate).
      { pose proof (is_RInt_plus _ _ 0 1 _ _ (const_int rate) (first_null_int i)) as Q.
        refine (eq_ind _ (fun v => is_RInt (fun x => rate + first_null i x) 0 1 v) Q _ _). change (rate + 0 = rate). ring. }
      refine (is_RInt_ext _ _ 0 1 _ _ Q). intros x _.
      change (rate + first_null i x = rate + (first_null i x + total (map (fun m : nat => match m with O => first_null i x | S _ => 0 end) (seq 1 j)))).
      rewrite total_zero; [rring|]. intros m Hmj. apply in_seq in Hmj. destruct m; [lia|reflexivity]. }
  exists (fun t => / INR n * sums_i (3 * S j + 1) (fun i s => g i (s 0%nat) (later_numbers s)) n t). split.
  - intros t. unfold Rdiv. rewrite Rmult_comm. apply Rmult_le_compat_l; [left; now apply Rinv_0_lt_compat|].
    unfold sums_i. generalize (seq 0 n). intros l; induction l as [|i l IH]; cbn [map total]; [lra|]. apply Rplus_le_compat; [|exact IH].
    exact (Rle_trans _ _ _ (ball_still_le t i) (Le i _ _)).
  - replace rate with (/ INR n * total (map (fun _ : nat => rate) (seq 0 n))).
    2: { rewrite total_map_const, seq_length. field. lra. }
    apply is_mean_scal, sums_i_mean. intros i _. apply Me.
Qed.
End BallRuns.
