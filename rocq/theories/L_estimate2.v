(** The means of C157 exist: integrability of the reflectance of one and two
    trajectories of one event. *)
From Coq Require Import Lra Lia Psatz Reals List FunctionalExtensionality.
From Verif Require Import Num Spec Spec_detector Spec_mean Spec_direct Spec_estimate M_init M_montecarlo M_detector M_simulation
  L_num L_exits L_mean L_periodic L_direct L_estimate.
From Coquelicot Require Import Coquelicot.
Import ListNotations.
Open Scope R_scope.

Lemma ratio_lip z z' a a' d Z e : 0 < d -> 0 <= z <= Z -> 0 <= z' <= Z -> d <= a -> d <= a' -> Rabs (z - z') <= e -> Rabs (a - a') <= e ->
  Rabs (z ^ 2 / a - z' ^ 2 / a') <= (2 * Z / d + Z ^ 2 / d ^ 2) * e.
Proof.
  intros Hd Hz Hz' Ha Ha' He He2.
  assert (E0 : 0 <= e) by (pose proof (Rabs_pos (z - z')); lra).
  replace (z ^ 2 / a - z' ^ 2 / a') with ((z - z') * ((z + z') / a) + (a' - a) * (z' ^ 2 / (a * a'))) by (field; lra).
  eapply Rle_trans; [apply Rabs_triang|]. rewrite !Rabs_mult, Rmult_plus_distr_r. rewrite (Rabs_minus_sym a' a).
  assert (A1 : 0 <= (z + z') / a <= 2 * Z / d).
  { split; [apply Rmult_le_pos; [lra|left; apply Rinv_0_lt_compat; lra]|]. unfold Rdiv. apply Rmult_le_compat; try lra; [left; apply Rinv_0_lt_compat; lra|].
    apply Rinv_le_contravar; lra. }
  assert (A2 : 0 <= z' ^ 2 / (a * a') <= Z ^ 2 / d ^ 2).
  { split; [apply Rmult_le_pos; [apply pow2_ge_0|left; apply Rinv_0_lt_compat, Rmult_lt_0_compat; lra]|].
    unfold Rdiv. apply Rmult_le_compat; [apply pow2_ge_0|left; apply Rinv_0_lt_compat, Rmult_lt_0_compat; lra|apply pow_incr; lra|].
    apply Rinv_le_contravar; [apply pow_lt; lra|]. replace (d ^ 2) with (d * d) by ring. apply Rmult_le_compat; lra. }
  rewrite (Rabs_pos_eq ((z + z') / a)), (Rabs_pos_eq (z' ^ 2 / (a * a'))) by lra.
  apply Rplus_le_compat; rewrite Rmult_comm; apply Rmult_le_compat; try lra; apply Rabs_pos.
Qed.

Definition clip (w : R) : R := Rmax 0 (Rmin 1 w).
Lemma clip_in w : 0 <= clip w <= 1.
Proof. unfold clip. split; [apply Rmax_l|]. apply Rmax_lub; [lra|apply Rmin_l]. Qed.
Lemma clip_id w : 0 <= w <= 1 -> clip w = w.
Proof. intros H. unfold clip. rewrite Rmin_right by lra. apply Rmax_right. lra. Qed.
Lemma clip_lip w w' : Rabs (clip w - clip w') <= Rabs (w - w').
Proof.
  unfold clip, Rmax, Rmin. repeat destruct (Rle_dec _ _); unfold Rabs; repeat destruct (Rcase_abs _); lra.
Qed.
Definition lip01 (f : R -> R) : Prop := exists L, 0 <= L /\ forall w w', 0 <= w <= 1 -> 0 <= w' <= 1 -> Rabs (f w - f w') <= L * Rabs (w - w').
Lemma lip_cont (f W : R -> R) (t : R) : lip01 f -> continuous W t -> continuous (fun t => f (clip (W t))) t.
Proof.
  intros (L & HL & Hf) HW. apply filterlim_locally. intros eps.
  assert (Hd : 0 < eps / (L + 1)) by (apply Rdiv_lt_0_compat; [apply cond_pos|lra]).
  pose proof (proj1 (filterlim_locally W (W t)) HW (mkposreal _ Hd)) as Q. revert Q. apply filter_imp. intros y Hy.
  unfold ball in *; cbn in *. unfold AbsRing_ball, abs, minus, plus, opp in *; cbn in *.
  pose proof (Hf (clip (W y)) (clip (W t)) (clip_in _) (clip_in _)) as A. pose proof (clip_lip (W y) (W t)) as B.
  change (W y + - W t) with (W y - W t) in Hy. change (f (clip (W y)) + - f (clip (W t))) with (f (clip (W y)) - f (clip (W t))).
  apply Rle_lt_trans with (L * Rabs (W y - W t)); [eapply Rle_trans; [exact A|]; apply Rmult_le_compat_l; lra|].
  apply Rle_lt_trans with (L * (eps / (L + 1))); [apply Rmult_le_compat_l; lra|].
  apply Rmult_lt_reg_r with (L + 1); [lra|]. replace (L * (eps / (L + 1)) * (L + 1)) with (L * eps) by (field; lra). pose proof (cond_pos eps). nra.
Qed.

(** A general two-piece integral of a function of the weight. *)
Section Pieces.
Variables (p u0 : R) (w : R -> R) (c : R -> bool).
Hypothesis (Hp : 0 < p) (Hu0 : 0 < u0 < 1).
Hypothesis (Hw : forall t, 0 < t < 1 -> 0 <= w t <= 1 /\ w t = pw p (1 - t)).
Hypothesis (Hc : forall t, 0 < t < 1 -> c t = Rleb u0 t).
Lemma W_cont t : t <= 1 -> continuous (fun t => pw p (1 - t)) t.
Proof.
  intros Ht. apply (continuous_comp (fun t => 1 - t) (pw p)).
  - apply (ex_derive_continuous (fun t => 1 - t) t). auto_derive. exact Logic.I.
  - apply pw_continuous; [exact Hp|lra].
Qed.
Definition I2 (f : bool -> R -> R) : R :=
  RInt (fun t => f false (clip (pw p (1 - t)))) 0 u0 + RInt (fun t => f true (clip (pw p (1 - t)))) u0 1.
Lemma piece f a b : lip01 f -> 0 <= a <= b -> b <= 1 -> ex_RInt (fun t => f (clip (pw p (1 - t)))) a b.
Proof.
  intros Hf Hab Hb. apply (ex_RInt_continuous (fun t => f (clip (pw p (1 - t))))). rewrite Rmin_left, Rmax_right by lra. intros t Ht.
  apply (lip_cont f (fun t => pw p (1 - t)) t Hf). apply W_cont. lra.
Qed.
Lemma I2_ok f : lip01 (f false) -> lip01 (f true) -> is_RInt (fun t => f (c t) (w t)) 0 1 (I2 f).
Proof.
  intros H1 H2.
  assert (Q1 : is_RInt (fun t => f (c t) (w t)) 0 u0 (RInt (fun t => f false (clip (pw p (1 - t)))) 0 u0)).
  { apply (is_RInt_ext (fun t => f false (clip (pw p (1 - t))))); [|apply (RInt_correct (fun t => f false (clip (pw p (1 - t))))), piece; lra || assumption].
    rewrite Rmin_left, Rmax_right by lra. intros t Ht. destruct (Hw t ltac:(lra)) as [R1 R2]. rewrite (Hc t ltac:(lra)), (proj2 (Rleb_false u0 t)) by lra.
    rewrite R2 in R1 |- *. now rewrite clip_id by exact R1. }
  assert (Q2 : is_RInt (fun t => f (c t) (w t)) u0 1 (RInt (fun t => f true (clip (pw p (1 - t)))) u0 1)).
  { apply (is_RInt_ext (fun t => f true (clip (pw p (1 - t))))); [|apply (RInt_correct (fun t => f true (clip (pw p (1 - t))))), piece; lra || assumption].
    rewrite Rmin_left, Rmax_right by lra. intros t Ht. destruct (Hw t ltac:(lra)) as [R1 R2]. rewrite (Hc t ltac:(lra)), (proj2 (Rleb_true u0 t)) by lra.
    rewrite R2 in R1 |- *. now rewrite clip_id by exact R1. }
  exact (is_RInt_Chasles (fun t => f (c t) (w t)) 0 u0 1 _ _ Q1 Q2).
Qed.
(** The integral depends on a parameter as the function does. *)
Lemma I2_close f g e : 0 <= e -> lip01 (f false) -> lip01 (f true) -> lip01 (g false) -> lip01 (g true) ->
  (forall b v, 0 <= v <= 1 -> Rabs (f b v - g b v) <= e) -> Rabs (I2 f - I2 g) <= e.
Proof.
  intros He F1 F2 G1 G2 H.
  assert (B : forall b x y, 0 <= x <= y -> y <= 1 -> lip01 (f b) -> lip01 (g b) ->
    Rabs (RInt (fun t => f b (clip (pw p (1 - t)))) x y - RInt (fun t => g b (clip (pw p (1 - t)))) x y) <= (y - x) * e).
  { intros b x y Hx Hy Lf Lg.
    pose proof (is_RInt_minus _ _ x y _ _ (RInt_correct _ _ _ (piece (f b) x y Lf Hx Hy)) (RInt_correct _ _ _ (piece (g b) x y Lg Hx Hy))) as Q.
    exact (norm_RInt_le_const (fun t => minus (f b (clip (pw p (1 - t)))) (g b (clip (pw p (1 - t))))) x y _ e (proj2 Hx) (fun t _ => H b _ (clip_in _)) Q). }
  pose proof (B false 0 u0 ltac:(lra) ltac:(lra) F1 G1) as B1. pose proof (B true u0 1 ltac:(lra) ltac:(lra) F2 G2) as B2. unfold I2.
  match goal with |- Rabs (?a + ?b - (?c' + ?d)) <= _ => replace (a + b - (c' + d)) with ((a - c') + (b - d)) by ring end.
  eapply Rle_trans; [apply Rabs_triang|]. lra.
Qed.
End Pieces.

Section Psi.
Variables (I x B : R).
Hypothesis (HI : 0 < I <= 1) (Hx : 0 < x < 1).
Definition tp (b : bool) (w : R) : R := if b then I * x * w else 0.
Definition kk (b : bool) (w : R) : R := I * (1 - w) + tp b w.
Definition ss (b : bool) (w : R) : R := if b then 0 else I * w.
Definition one (b : bool) (w : R) : R := B + ss b w / 2 + (1 - x) / x * (tp b w ^ 2 / kk b w).
Definition two (b : bool) (w : R) (b' : bool) (w' : R) : R :=
  B + (ss b w + ss b' w') / 4 + (1 - x) / x / 2 * ((tp b w + tp b' w') ^ 2 / (kk b w + kk b' w')).
Lemma two_sym b w b' w' : two b w b' w' = two b' w' b w.
Proof. unfold two. rewrite (Rplus_comm (ss b w)), (Rplus_comm (tp b w)), (Rplus_comm (kk b w)). reflexivity. Qed.
Lemma q_pos : 0 < (1 - x) / x.
Proof. apply Rdiv_lt_0_compat; lra. Qed.
Lemma tp_range b w : 0 <= w <= 1 -> 0 <= tp b w <= 1.
Proof.
  intros H. unfold tp. destruct b; [|lra]. assert (0 <= I * x <= 1) by (split; [apply Rmult_le_pos; lra|]; nra).
  split; [apply Rmult_le_pos; lra|]. nra.
Qed.
Lemma kk_range b w : 0 <= w <= 1 -> 0 <= kk b w.
Proof. intros H. pose proof (tp_range b w H). unfold kk. assert (0 <= I * (1 - w)) by (apply Rmult_le_pos; lra). lra. Qed.
Lemma kk_true w : 0 <= w <= 1 -> I * x <= kk true w.
Proof. intros H. unfold kk, tp. assert (0 <= I * (1 - x) * (1 - w)) by (apply Rmult_le_pos; [apply Rmult_le_pos|]; lra). lra. Qed.
Lemma tp_lip b w w' : Rabs (tp b w - tp b w') <= Rabs (w - w').
Proof.
  unfold tp. destruct b; [|rewrite Rminus_diag_eq, Rabs_R0 by reflexivity; apply Rabs_pos].
  replace (I * x * w - I * x * w') with (I * x * (w - w')) by ring. rewrite Rabs_mult. assert (0 <= I * x <= 1) by (split; [apply Rmult_le_pos; lra|]; nra).
  rewrite Rabs_pos_eq by lra. pose proof (Rabs_pos (w - w')). nra.
Qed.
Lemma kk_lip b w w' : Rabs (kk b w - kk b w') <= Rabs (w - w').
Proof.
  unfold kk, tp. destruct b.
  - replace (I * (1 - w) + I * x * w - (I * (1 - w') + I * x * w')) with (- (I * (1 - x)) * (w - w')) by ring. rewrite Rabs_mult, Rabs_Ropp.
    assert (0 <= I * (1 - x) <= 1) by (split; [apply Rmult_le_pos; lra|]; nra). rewrite Rabs_pos_eq by lra. pose proof (Rabs_pos (w - w')). nra.
  - replace (I * (1 - w) + 0 - (I * (1 - w') + 0)) with (- I * (w - w')) by ring. rewrite Rabs_mult, Rabs_Ropp, Rabs_pos_eq by lra. pose proof (Rabs_pos (w - w')). nra.
Qed.
Lemma ss_lip b w w' : Rabs (ss b w - ss b w') <= Rabs (w - w').
Proof.
  unfold ss. destruct b; [rewrite Rminus_diag_eq, Rabs_R0 by reflexivity; apply Rabs_pos|].
  rewrite <- Rmult_minus_distr_l, Rabs_mult, Rabs_pos_eq by lra. pose proof (Rabs_pos (w - w')). nra.
Qed.
Definition LL : R := 1 + (1 - x) / x * (2 * 2 / (I * x) + 2 ^ 2 / (I * x) ^ 2).
Lemma LL_pos : 0 <= LL.
Proof.
  unfold LL. pose proof q_pos. assert (0 < I * x) by (apply Rmult_lt_0_compat; lra).
  assert (0 < 2 * 2 / (I * x)) by (apply Rdiv_lt_0_compat; lra). assert (0 < 2 ^ 2 / (I * x) ^ 2) by (apply Rdiv_lt_0_compat; [lra|apply pow_lt; lra]). nra.
Qed.
Lemma sq_lip b w w' b' v : 0 <= w <= 1 -> 0 <= w' <= 1 -> 0 <= v <= 1 ->
  Rabs ((tp b w + tp b' v) ^ 2 / (kk b w + kk b' v) - (tp b w' + tp b' v) ^ 2 / (kk b w' + kk b' v)) <= (2 * 2 / (I * x) + 2 ^ 2 / (I * x) ^ 2) * Rabs (w - w').
Proof.
  intros H1 H2 H3. assert (HIx : 0 < I * x) by (apply Rmult_lt_0_compat; lra).
  destruct (orb b b') eqn:E.
  - apply ratio_lip; [exact HIx| | | | | |].
    + pose proof (tp_range b w H1). pose proof (tp_range b' v H3). lra.
    + pose proof (tp_range b w' H2). pose proof (tp_range b' v H3). lra.
    + pose proof (kk_range b w H1). pose proof (kk_range b' v H3). destruct b; [pose proof (kk_true w H1); lra|]. destruct b'; [|discriminate]. pose proof (kk_true v H3). lra.
    + pose proof (kk_range b w' H2). pose proof (kk_range b' v H3). destruct b; [pose proof (kk_true w' H2); lra|]. destruct b'; [|discriminate]. pose proof (kk_true v H3). lra.
    + replace (tp b w + tp b' v - (tp b w' + tp b' v)) with (tp b w - tp b w') by ring. apply tp_lip.
    + replace (kk b w + kk b' v - (kk b w' + kk b' v)) with (kk b w - kk b w') by ring. apply kk_lip.
  - apply Bool.orb_false_iff in E. destruct E as [-> ->]. change (tp false w) with 0. change (tp false w') with 0. change (tp false v) with 0.
    match goal with |- Rabs ?e <= _ => replace e with 0 by (unfold Rdiv; ring) end. rewrite Rabs_R0. pose proof LL_pos as L. unfold LL in L.
    assert (0 < 2 * 2 / (I * x)) by (apply Rdiv_lt_0_compat; lra). assert (0 < 2 ^ 2 / (I * x) ^ 2) by (apply Rdiv_lt_0_compat; [lra|apply pow_lt; lra]).
    apply Rmult_le_pos; [lra|apply Rabs_pos].
Qed.
Lemma two_lip b w w' b' v : 0 <= w <= 1 -> 0 <= w' <= 1 -> 0 <= v <= 1 -> Rabs (two b w b' v - two b w' b' v) <= LL * Rabs (w - w').
Proof.
  intros H1 H2 H3. pose proof (sq_lip b w w' b' v H1 H2 H3) as A. pose proof (ss_lip b w w') as C. unfold two, LL.
  set (y := (tp b w + tp b' v) ^ 2 / (kk b w + kk b' v)) in *. set (y' := (tp b w' + tp b' v) ^ 2 / (kk b w' + kk b' v)) in *. set (L := 2 * 2 / (I * x) + 2 ^ 2 / (I * x) ^ 2) in *.
  replace (B + (ss b w + ss b' v) / 4 + (1 - x) / x / 2 * y - (B + (ss b w' + ss b' v) / 4 + (1 - x) / x / 2 * y'))
    with (/ 4 * (ss b w - ss b w') + (1 - x) / x / 2 * (y - y')) by (field; lra).
  eapply Rle_trans; [apply Rabs_triang|]. rewrite !Rabs_mult. pose proof q_pos as Q. set (q := (1 - x) / x) in *.
  rewrite (Rabs_pos_eq (/ 4)), (Rabs_pos_eq (q / 2)) by lra. pose proof (Rabs_pos (w - w')). pose proof (Rabs_pos (y - y')). nra.
Qed.
Lemma one_two b w : 0 <= w <= 1 -> (kk b w <> 0 \/ b = false) -> one b w = two b w b w.
Proof.
  intros H [K| ->]; unfold one, two.
  - field. lra.
  - change (tp false w) with 0. replace (0 ^ 2 / kk false w) with 0 by (unfold Rdiv; ring). replace ((0 + 0) ^ 2 / (kk false w + kk false w)) with 0 by (unfold Rdiv; ring). lra.
Qed.
Lemma one_lip b : lip01 (one b).
Proof.
  exists (2 * LL). pose proof LL_pos. split; [lra|]. intros w w' H1 H2.
  assert (E : forall w, 0 <= w <= 1 -> one b w = two b w b w).
  { intros v Hv. apply one_two; [exact Hv|]. destruct b; [left|now right]. pose proof (kk_true v Hv). assert (0 < I * x) by (apply Rmult_lt_0_compat; lra). lra. }
  rewrite !E by assumption. replace (two b w b w - two b w' b w') with ((two b w b w - two b w' b w) + (two b w' b w - two b w' b w')) by ring.
  eapply Rle_trans; [apply Rabs_triang|].
  pose proof (two_lip b w w' b w H1 H2 H1) as A. pose proof (two_lip b w w' b w' H1 H2 H2) as C. rewrite (two_sym b w b w') in C. lra.
Qed.
Lemma two_lip2 b w b' : 0 <= w <= 1 -> lip01 (two b w b').
Proof.
  intros H. exists LL. split; [apply LL_pos|]. intros v v' H1 H2. rewrite (two_sym b w b' v), (two_sym b w b' v'). now apply two_lip.
Qed.

(** The two means. *)
Variables (p u0 : R) (w : R -> R) (c : R -> bool).
Hypothesis (Hp : 0 < p) (Hu0 : 0 < u0 < 1).
Hypothesis (Hw : forall t, 0 < t < 1 -> 0 <= w t <= 1 /\ w t = pw p (1 - t)).
Hypothesis (Hw' : forall t, 0 <= w t <= 1).
Hypothesis (Hc : forall t, 0 < t < 1 -> c t = Rleb u0 t).
Lemma one_mean : exists m, is_RInt (fun t => one (c t) (w t)) 0 1 m.
Proof. exists (I2 p u0 one). apply I2_ok; try assumption; apply one_lip. Qed.
Definition inner (b : bool) (v : R) : R := I2 p u0 (two b v).
Lemma inner_lip b : lip01 (inner b).
Proof.
  exists LL. split; [apply LL_pos|]. intros v v' H1 H2. unfold inner.
  apply I2_close; try assumption; try (apply two_lip2; assumption); [apply Rmult_le_pos; [apply LL_pos|apply Rabs_pos]|].
  intros b' y Hy. now apply two_lip.
Qed.
Lemma two_mean : exists m, is_mean 2 (fun t => two (c (t 0%nat)) (w (t 0%nat)) (c (t 1%nat)) (w (t 1%nat))) m.
Proof.
  exists (I2 p u0 inner). exists (fun t => inner (c (t 0%nat)) (w (t 0%nat))). split.
  - intros t. change (upd t 1) with (fun x i => if Nat.eqb i 1 then x else t i). cbn [Nat.eqb]. unfold inner.
    apply (I2_ok p u0 w c Hp Hu0 Hw Hc (two (c (t 0%nat)) (w (t 0%nat)))); apply two_lip2, Hw'.
  - exists (fun _ => I2 p u0 inner). split; [|intros t; reflexivity]. intros t. change (upd t 0) with (fun x i => if Nat.eqb i 0 then x else t i). cbn [Nat.eqb].
    apply I2_ok; try assumption; apply inner_lip.
Qed.
End Psi.

Section Exist.
Variables (spot pmin pmax mu : R) (P : params) (D : draws).
Hypothesis (Hmu : 0 < mu) (HP : plain_film P) (Hfd : full_detection P) (Hv : valid_params P 1) (Ha : 0 < p_muabs P).
Hypothesis (Hu : forall n i, 0 <= d_u D n i < 1).
Local Notation dr := (fun s : nat -> R => with_first_draws (fun _ => s 0%nat) D).
Local Notation I0 := (through (p_nmedium P) (p_nfront P) (p_nsample P)).
Local Notation x0 := (through (p_nsample P) (p_nback P) (p_nmedium P)).
Local Notation run n E := (film_run 1 n spot 0 0 pmin pmax mu P E).
Local Notation w := (wt mu P).
Local Notation c := (cr mu P).
Lemma w_any u : 0 <= w u <= 1.
Proof.
  unfold wt. pose proof (base_fp u). assert (0 <= step_of mu (frac_part u)) by (apply L_montecarlo.step_nonneg; lra).
  assert (0 <= p_muabs P * step_of mu (frac_part u)) by (apply Rmult_le_pos; lra).
  split; [left; apply exp_pos|]. rewrite <- exp_0. destruct (Req_dec (p_muabs P * step_of mu (frac_part u)) 0) as [->|N]; [rewrite Ropp_0; lra|].
  left. apply exp_increasing. lra.
Qed.
Lemma w_pw u : 0 < u < 1 -> 0 <= w u <= 1 /\ w u = pw (p_muabs P / mu) (1 - u).
Proof.
  intros H. split; [apply w_any|]. unfold wt. rewrite frac_in by exact H. rewrite pw_pos by lra. unfold Rpower, step_of. f_equal. field. lra.
Qed.
Lemma c_at u : 0 < u < 1 -> c u = Rleb (1 - exp (- (mu * p_thickness P))) u.
Proof.
  intros H. assert (Hth : 0 < p_thickness P) by (destruct HP as (_ & _ & _ & _ & _ & _ & _ & X & _); exact X).
  set (u0 := 1 - exp (- (mu * p_thickness P))).
  assert (Hu0 : 0 < u0 < 1).
  { unfold u0. pose proof (exp_pos (- (mu * p_thickness P))).
    assert (exp (- (mu * p_thickness P)) < exp 0) by (apply exp_increasing; assert (0 < mu * p_thickness P) by (now apply Rmult_lt_0_compat); lra).
    rewrite exp_0 in *. lra. }
  unfold cr. rewrite frac_in by exact H. pose proof (step_at mu Hmu (p_thickness P) ltac:(lra)) as E. fold u0 in E.
  destruct (Rleb u0 u) eqn:L.
  - apply Rleb_true in L. apply Rleb_true. rewrite <- E at 1. apply step_mono; lra.
  - apply Rleb_false in L. apply Rleb_false. rewrite <- E. apply step_strict; lra.
Qed.
Lemma many_ok t n i : 0 <= d_u (many 1 dr t) n i < 1.
Proof. destruct n as [|n]; cbn [many d_u with_first_draws]; [match goal with |- _ <= frac_part ?a < _ => pose proof (base_fp a) end; lra|apply Hu]. Qed.
Lemma F1_formula x : 0 < x < 1 -> forall s, s 0%nat = x -> refl_of (run 1%nat (dr s)) = one I0 x0 (base P) (c x) (w x).
Proof.
  intros Hx s Es. destruct (kn_range mu P Hmu HP Ha x Hx) as [_ K].
  assert (Gd : forall n i, 0 <= d_u (dr s) n i < 1) by (intros [|n] i; cbn [d_u with_first_draws]; [pose proof (base_fp (s 0%nat)); lra|apply Hu]).
  pose proof (run_formula spot pmin pmax mu P Hmu HP Hfd Hv 1 (dr s) (fun _ => x) ltac:(lia) Gd ltac:(intros i; cbn [d_u with_first_draws]; now rewrite Es)) as Q.
  cbn [seq map total] in Q. rewrite !Rplus_0_r in Q. specialize (Q ltac:(lra)). change (INR 1) with 1 in Q. rewrite Rmult_1_l in Q. rewrite Q. reflexivity.
Qed.
Lemma F2_formula t x y : 0 < y < 1 -> t 0%nat = x -> t 1%nat = y -> refl_of (run 2%nat (many 1 dr t)) = two I0 x0 (base P) (c x) (w x) (c y) (w y).
Proof.
  intros Hy Ex Ey. destruct (kn_range mu P Hmu HP Ha y Hy) as [_ K]. destruct (surf_range P HP) as [RI RX].
  assert (K0 : 0 <= kn mu P x) by (apply (kk_range I0 x0 RI RX (c x) (w x)), w_any).
  pose proof (run_formula spot pmin pmax mu P Hmu HP Hfd Hv 2 (many 1 dr t) (fun i => numbers_of 1 t i 0%nat) ltac:(lia) (many_ok t) ltac:(reflexivity)) as Q.
  cbn [seq map total] in Q. rewrite !Rplus_0_r in Q.
  change (numbers_of 1 t 0 0%nat) with (t 0%nat) in Q. change (numbers_of 1 t 1 0%nat) with (t 1%nat) in Q. rewrite Ex, Ey in Q. specialize (Q ltac:(lra)).
  change (INR 2) with (1 + 1) in Q. unfold two.
  change (st mu P x) with (ss I0 (c x) (w x)) in Q. change (st mu P y) with (ss I0 (c y) (w y)) in Q.
  change (tpw mu P x) with (tp I0 x0 (c x) (w x)) in Q. change (tpw mu P y) with (tp I0 x0 (c y) (w y)) in Q.
  change (kn mu P x) with (kk I0 x0 (c x) (w x)) in Q. change (kn mu P y) with (kk I0 x0 (c y) (w y)) in Q.
  apply Rmult_eq_reg_l with (1 + 1); [|lra]. rewrite Q.
  set (z := (tp I0 x0 (c x) (w x) + tp I0 x0 (c y) (w y)) ^ 2 / (kk I0 x0 (c x) (w x) + kk I0 x0 (c y) (w y))). field. lra.
Qed.
Lemma biased_means : exists m1 m2, is_mean 1 (fun s => refl_of (run 1%nat (dr s))) m1 /\ is_mean 2 (fun t => refl_of (run 2%nat (many 1 dr t))) m2 /\ m2 < m1.
Proof.
  assert (Hth : 0 < p_thickness P) by (destruct HP as (_ & _ & _ & _ & _ & _ & _ & X & _); exact X).
  destruct (surf_range P HP) as [RI RX].
  assert (Hp : 0 < p_muabs P / mu) by (apply Rdiv_lt_0_compat; lra).
  assert (Hu0 : 0 < 1 - exp (- (mu * p_thickness P)) < 1).
  { pose proof (exp_pos (- (mu * p_thickness P))).
    assert (exp (- (mu * p_thickness P)) < exp 0) by (apply exp_increasing; assert (0 < mu * p_thickness P) by (now apply Rmult_lt_0_compat); lra).
    rewrite exp_0 in *. lra. }
  destruct (one_mean I0 x0 (base P) RI RX _ _ w c Hp Hu0 w_pw c_at) as (m1 & M1).
  destruct (two_mean I0 x0 (base P) RI RX _ _ w c Hp Hu0 w_pw w_any c_at) as (m2 & G & M2 & M2').
  assert (A1 : is_mean 1 (fun s => refl_of (run 1%nat (dr s))) m1).
  { exists (fun _ => m1). split; [|intros t; reflexivity]. intros t. revert M1. apply is_RInt_ext. rewrite Rmin_left, Rmax_right by lra.
    intros x Hx. symmetry. apply F1_formula; [exact Hx|]. apply upd_same. }
  assert (A2 : is_mean 2 (fun t => refl_of (run 2%nat (many 1 dr t))) m2).
  { exists G. split; [|exact M2']. intros t. generalize (M2 t). apply is_RInt_ext. rewrite Rmin_left, Rmax_right by lra.
    intros x Hx. symmetry. apply F2_formula; [rewrite upd_same; exact Hx|reflexivity|reflexivity]. }
  exists m1, m2. split; [exact A1|]. split; [exact A2|].
  exact (biased spot pmin pmax mu P D Hmu HP Hfd Hv Ha Hu m1 m2 A1 A2).
Qed.
End Exist.
