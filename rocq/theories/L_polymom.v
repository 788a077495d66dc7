(** The transforms of the size distribution: characteristic function and moments (C143). *)
From Verif Require Import Num L_num M_structure L_poly L_polylim L_polypos.
From Coq Require Import Lra Lia Psatz.
From Coquelicot Require Import Hierarchy Complex Derive AutoDerive.
Open Scope R_scope.

Section Mom.
Variables (d T a tm : R).
Hypothesis (HT : 0 < T).
Definition re (q : R) : R := tm * Rpower (sqrt (1 + (q * d / T) ^ 2)) (- a) * cos (a * atan (q * d / T)).
Definition im (q : R) : R := - (tm * Rpower (sqrt (1 + (q * d / T) ^ 2)) (- a) * sin (a * atan (q * d / T))).
Lemma root_pos q : 0 < 1 + (q * d / T) ^ 2.
Proof. pose proof (pow2_ge_0 (q * d / T)). lra. Qed.
Lemma d_pow q : derivable_pt_lim (fun q => Rpower (sqrt (1 + (q * d / T) ^ 2)) (- a)) q
  (- a * (d / T) * (q * d / T) * Rpower (sqrt (1 + (q * d / T) ^ 2)) (- a) / (1 + (q * d / T) ^ 2)).
Proof.
  apply (is_derive_Reals (fun q : R_AbsRing => Rpower (sqrt (1 + (q * d / T) ^ 2)) (- a))). unfold Rpower. pose proof (root_pos q) as Hp. pose proof (sqrt_lt_R0 _ Hp) as Hs.
  assert (Hd : is_derive (fun q : R_AbsRing => exp (- a * (/ 2 * ln (1 + (q * d / T) ^ 2)))) q (- a * (d / T) * (q * d / T) * exp (- a * ln (sqrt (1 + (q * d / T) ^ 2))) / (1 + (q * d / T) ^ 2))).
  { auto_derive; [replace (q * d / T * (q * d / T * 1)) with ((q * d / T) ^ 2) by ring; exact Hp|].
    replace (q * d * / T) with (q * d / T) by reflexivity. replace (1 + q * d / T * (q * d / T * 1)) with (1 + (q * d / T) ^ 2) by ring.
    replace (ln (sqrt (1 + (q * d / T) ^ 2))) with (/ 2 * ln (1 + (q * d / T) ^ 2)).
    2:{ rewrite <- Rpower_sqrt by exact Hp. unfold Rpower. rewrite ln_exp. reflexivity. }
    set (E := exp _). set (b := 1 + (q * d / T) ^ 2). simpl. field. split; [lra|unfold b; lra]. }
  eapply is_derive_ext; [|exact Hd]. intros u. cbv beta. f_equal. f_equal.
  pose proof (root_pos u). rewrite <- Rpower_sqrt by assumption. unfold Rpower. rewrite ln_exp. reflexivity.
Qed.

Lemma d_atan q : derivable_pt_lim (fun q => a * atan (q * d / T)) q (a * (d / T / (1 + (q * d / T) ^ 2))).
Proof.
  apply (derivable_pt_lim_scal (fun q => atan (q * d / T))).
  replace (d / T / (1 + (q * d / T) ^ 2)) with (/ (1 + (q * d / T) ^ 2) * (d / T)) by (unfold Rdiv; ring).
  apply (derivable_pt_lim_comp (fun q => q * d / T) atan).
  - replace (d / T) with (1 * (d / T)) by ring.
    apply (derivable_pt_lim_ext (fun q => q * (d / T))); [intros; field; lra|].
    replace (1 * (d / T)) with (1 * (d / T) + q * 0) by ring.
    apply (derivable_pt_lim_mult (fun q => q) (fun _ => d / T)); [apply derivable_pt_lim_id|apply derivable_pt_lim_const].
  - apply derivable_pt_lim_atan.
Qed.
End Mom.

(** The transform of order [a] is differentiated into the one of order [a + 1]. *)
Lemma re_next d T a tm q : 0 < T -> derivable_pt_lim (re d T a tm) q (d * im d T (a + 1) (tm * a / T) q).
Proof.
  intros HT. set (tau := q * d / T). set (r := sqrt (1 + tau ^ 2)). set (t := atan tau). 
  assert (Hp : 0 < 1 + tau ^ 2) by (pose proof (pow2_ge_0 tau); lra).
  assert (Hr : 0 < r) by (now apply sqrt_lt_R0). assert (Hrr : r * r = 1 + tau ^ 2) by (apply sqrt_sqrt; lra).
  assert (Hcos : cos t = / r). { unfold t, r. rewrite cos_atan. unfold Rdiv. rewrite Rmult_1_l. repeat f_equal. unfold Rsqr. ring. }
  assert (Hsin : sin t = tau / r). { unfold t, r. rewrite sin_atan. repeat f_equal. unfold Rsqr. ring. }
  unfold im. fold tau r t.
  replace (d * - (tm * a / T * Rpower r (- (a + 1)) * sin ((a + 1) * t)))
    with ((tm * (- a * (d / T) * tau * Rpower r (- a) / (1 + tau ^ 2))) * cos (a * t) + (tm * Rpower r (- a)) * (- sin (a * t) * (a * (d / T / (1 + tau ^ 2))))).
  - unfold re. apply (derivable_pt_lim_mult (fun q => tm * Rpower (sqrt (1 + (q * d / T) ^ 2)) (- a)) (fun q => cos (a * atan (q * d / T)))).
    + apply (derivable_pt_lim_scal (fun q => Rpower (sqrt (1 + (q * d / T) ^ 2)) (- a))). now apply d_pow.
    + apply (derivable_pt_lim_comp (fun q => a * atan (q * d / T)) cos); [now apply d_atan|apply derivable_pt_lim_cos].
  - replace (- (a + 1)) with (- a + - (1)) by ring. rewrite Rpower_plus, (Rpower_Ropp r 1), Rpower_1 by exact Hr.
    replace ((a + 1) * t) with (a * t + t) by ring. rewrite sin_plus, Hcos, Hsin, <- Hrr. field. lra.
Qed.
Lemma im_next d T a tm q : 0 < T -> derivable_pt_lim (im d T a tm) q (- d * re d T (a + 1) (tm * a / T) q).
Proof.
  intros HT. set (tau := q * d / T). set (r := sqrt (1 + tau ^ 2)). set (t := atan tau). 
  assert (Hp : 0 < 1 + tau ^ 2) by (pose proof (pow2_ge_0 tau); lra).
  assert (Hr : 0 < r) by (now apply sqrt_lt_R0). assert (Hrr : r * r = 1 + tau ^ 2) by (apply sqrt_sqrt; lra).
  assert (Hcos : cos t = / r). { unfold t, r. rewrite cos_atan. unfold Rdiv. rewrite Rmult_1_l. repeat f_equal. unfold Rsqr. ring. }
  assert (Hsin : sin t = tau / r). { unfold t, r. rewrite sin_atan. repeat f_equal. unfold Rsqr. ring. }
  unfold re. fold tau r t.
  replace (- d * (tm * a / T * Rpower r (- (a + 1)) * cos ((a + 1) * t)))
    with (- ((tm * (- a * (d / T) * tau * Rpower r (- a) / (1 + tau ^ 2))) * sin (a * t) + (tm * Rpower r (- a)) * (cos (a * t) * (a * (d / T / (1 + tau ^ 2)))))).
  - unfold im. apply (derivable_pt_lim_opp (fun q => tm * Rpower (sqrt (1 + (q * d / T) ^ 2)) (- a) * sin (a * atan (q * d / T)))).
    apply (derivable_pt_lim_mult (fun q => tm * Rpower (sqrt (1 + (q * d / T) ^ 2)) (- a)) (fun q => sin (a * atan (q * d / T)))).
    + apply (derivable_pt_lim_scal (fun q => Rpower (sqrt (1 + (q * d / T) ^ 2)) (- a))). now apply d_pow.
    + apply (derivable_pt_lim_comp (fun q => a * atan (q * d / T)) sin); [now apply d_atan|apply derivable_pt_lim_sin].
  - replace (- (a + 1)) with (- a + - (1)) by ring. rewrite Rpower_plus, (Rpower_Ropp r 1), Rpower_1 by exact Hr.
    replace ((a + 1) * t) with (a * t + t) by ring. rewrite cos_plus, Hcos, Hsin, <- Hrr. field. lra.
Qed.
Lemma re_0 d T a tm : 0 < T -> re d T a tm 0 = tm.
Proof.
  intros HT. unfold re. replace (0 * d / T) with 0 by (field; lra). rewrite atan_0, Rmult_0_r, cos_0.
  replace (1 + 0 ^ 2) with 1 by ring. rewrite sqrt_1, Rpower_base1. ring.
Qed.
Lemma im_0 d T a tm : 0 < T -> im d T a tm 0 = 0.
Proof. intros HT. unfold im. replace (0 * d / T) with 0 by (field; lra). rewrite atan_0, Rmult_0_r, sin_0. ring. Qed.
Lemma mod_bound d T a tm q : 0 <= a -> 0 <= tm -> Cmod (re d T a tm q, im d T a tm q) <= tm.
Proof.
  intros Ha Htm. unfold re, im. set (tau := q * d / T). set (r := sqrt (1 + tau ^ 2)). set (t := a * atan tau).
  assert (Hr : 1 <= r). { rewrite <- sqrt_1. unfold r. apply sqrt_le_1_alt. pose proof (pow2_ge_0 tau). lra. }
  assert (HP : 0 < Rpower r (- a) <= 1). { split; [unfold Rpower; apply exp_pos|]. rewrite <- (Rpower_O r) by lra. apply Rle_Rpower; lra. }
  unfold Cmod. cbn [fst snd]. set (P := Rpower r (- a)) in *.
  replace ((tm * P * cos t) ^ 2 + (- (tm * P * sin t)) ^ 2) with ((tm * P) ^ 2 * (sin t * sin t + cos t * cos t)) by ring.
  replace (sin t * sin t + cos t * cos t) with 1 by (pose proof (sin2_cos2 t) as X; unfold Rsqr in X; lra).
  rewrite Rmult_1_r, sqrt_pow2 by (apply Rmult_le_pos; lra). nra.
Qed.

(** * Bounds *)
Lemma grow g g' M n : g 0 = 0 -> (forall c, 0 <= c -> derivable_pt_lim g c (g' c)) ->
  (forall c, 0 <= c -> g' c <= M * c ^ n) -> forall q, 0 < q -> g q <= M * q ^ S n / INR (S n).
Proof.
  intros H0 D B q Hq. set (h := fun c => g c - M / INR (S n) * c ^ S n).
  assert (HS : 0 < INR (S n)) by (apply lt_0_INR; lia).
  destruct (MVT_cor2 h (fun c => g' c - M / INR (S n) * (INR (S n) * c ^ n)) 0 q Hq) as (c & E & Hc).
  { intros c Hc. unfold h. apply (derivable_pt_lim_minus g (fun c => M / INR (S n) * c ^ S n)); [apply D; lra|].
    apply (derivable_pt_lim_scal (fun c => c ^ S n)). apply (derivable_pt_lim_pow c (S n)). }
  unfold h in E. rewrite H0, pow_i, Rmult_0_r, Rminus_0_r, Rminus_0_r in E by lia. specialize (B c ltac:(lra)).
  replace (M / INR (S n) * (INR (S n) * c ^ n)) with (M * c ^ n) in E by (field; lra).
  replace (M * q ^ S n / INR (S n)) with (M / INR (S n) * q ^ S n) by (field; lra). nra.
Qed.
Lemma cauchy2 e1 e2 a b : e1 ^ 2 + e2 ^ 2 = 1 -> e1 * a + e2 * b <= Cmod (a, b).
Proof.
  intros He. unfold Cmod. cbn [fst snd].
  assert (Hn : 0 <= a ^ 2 + b ^ 2) by (pose proof (pow2_ge_0 a); pose proof (pow2_ge_0 b); lra).
  destruct (Rle_lt_dec (e1 * a + e2 * b) 0) as [L|L]; [pose proof (sqrt_pos (a ^ 2 + b ^ 2)); lra|].
  rewrite <- (sqrt_pow2 (e1 * a + e2 * b)) by lra. apply sqrt_le_1_alt.
  assert (0 <= (e1 * b - e2 * a) ^ 2) by apply pow2_ge_0.
  replace (a ^ 2 + b ^ 2) with ((e1 ^ 2 + e2 ^ 2) * (a ^ 2 + b ^ 2)) by (rewrite He; ring). nra.
Qed.
Lemma cgrow u v u' v' M n : u 0 = 0 -> v 0 = 0 -> (forall c, 0 <= c -> derivable_pt_lim u c (u' c)) -> (forall c, 0 <= c -> derivable_pt_lim v c (v' c)) ->
  (forall c, 0 <= c -> Cmod (u' c, v' c) <= M * c ^ n) -> forall q, 0 < q -> Cmod (u q, v q) <= M * q ^ S n / INR (S n).
Proof.
  intros Hu Hv Du Dv B q Hq. set (m := Cmod (u q, v q)).
  assert (Hm : 0 <= m) by apply Cmod_ge_0.
  assert (HM0 : 0 <= M * q ^ S n / INR (S n)).
  { pose proof (B q ltac:(lra)) as Bq. pose proof (Cmod_ge_0 (u' q, v' q)). replace (M * q ^ S n / INR (S n)) with ((M * q ^ n) * (q / INR (S n))) by (simpl pow; field; apply not_0_INR; lia).
    apply Rmult_le_pos; [lra|]. apply Rmult_le_pos; [lra|]. left. apply Rinv_0_lt_compat, lt_0_INR. lia. }
  destruct (Req_dec m 0) as [Z|Z]; [lra|].
  assert (Hm2 : u q ^ 2 + v q ^ 2 = m * m).
  { unfold m, Cmod. cbn [fst snd]. rewrite sqrt_sqrt; [reflexivity|]. pose proof (pow2_ge_0 (u q)). pose proof (pow2_ge_0 (v q)). lra. }
  set (e1 := u q / m). set (e2 := v q / m).
  assert (He : e1 ^ 2 + e2 ^ 2 = 1). { unfold e1, e2. replace ((u q / m) ^ 2 + (v q / m) ^ 2) with ((u q ^ 2 + v q ^ 2) / (m * m)) by (field; exact Z). rewrite Hm2. field. exact Z. }
  pose proof (grow (fun c => e1 * u c + e2 * v c) (fun c => e1 * u' c + e2 * v' c) M n) as G.
  replace m with (e1 * u q + e2 * v q).
  2:{ unfold e1, e2. replace (u q / m * u q + v q / m * v q) with ((u q ^ 2 + v q ^ 2) / m) by (field; exact Z). rewrite Hm2. field. exact Z. }
  apply G; [rewrite Hu, Hv; ring| | |exact Hq].
  - intros c Hc. apply (derivable_pt_lim_plus (fun c => e1 * u c) (fun c => e2 * v c)).
    + apply (derivable_pt_lim_scal u). now apply Du.
    + apply (derivable_pt_lim_scal v). now apply Dv.
  - intros c Hc. eapply Rle_trans; [now apply cauchy2|now apply B].
Qed.

Lemma Cmod_scale2 k a b : 0 <= k -> Cmod (k * a, k * b) = k * Cmod (a, b).
Proof.
  intros Hk. unfold Cmod. cbn [fst snd]. replace ((k * a) ^ 2 + (k * b) ^ 2) with (k ^ 2 * (a ^ 2 + b ^ 2)) by ring.
  rewrite sqrt_mult_alt by (apply pow2_ge_0). now rewrite sqrt_pow2.
Qed.
Lemma Cmod_turn a b : Cmod (b, - a) = Cmod (a, b).
Proof. unfold Cmod. cbn [fst snd]. f_equal. ring. Qed.
Lemma Cmod_turn' a b : Cmod (- b, a) = Cmod (a, b).
Proof. unfold Cmod. cbn [fst snd]. f_equal. ring. Qed.

Section Bounds.
Variables (d T a tm : R).
Hypothesis (HT : 0 < T) (Hd : 0 < d) (Ha : 0 <= a) (Htm : 0 <= tm).
Local Notation tm1 := (tm * a / T).
Local Notation tm2 := (tm1 * (a + 1) / T).
Local Notation tm3 := (tm2 * (a + 1 + 1) / T).
Lemma next_nonneg t b : 0 <= t -> 0 <= b -> 0 <= t * b / T.
Proof. intros. apply Rmult_le_pos; [now apply Rmult_le_pos|left; now apply Rinv_0_lt_compat]. Qed.
Lemma d_id c k : derivable_pt_lim (fun q => k * q) c k.
Proof. pose proof (derivable_pt_lim_scal (fun q => q) k c 1 (derivable_pt_lim_id c)) as X. rewrite Rmult_1_r in X. exact X. Qed.
(** first order *)
Lemma first_order q : 0 < q -> Cmod (re d T a tm q - tm, im d T a tm q) <= tm1 * (q * d).
Proof.
  intros Hq. pose proof (cgrow (fun q => re d T a tm q - tm) (im d T a tm) (fun q => d * im d T (a + 1) tm1 q) (fun q => d * - re d T (a + 1) tm1 q) (d * tm1) 0) as G.
  replace (tm1 * (q * d)) with (d * tm1 * q ^ 1 / INR 1) by (cbn; field; lra). apply G; [rewrite re_0 by exact HT; ring|now apply im_0| | | |exact Hq].
  - intros c Hc. replace (d * im d T (a + 1) tm1 c) with (d * im d T (a + 1) tm1 c - 0) by ring.
    apply (derivable_pt_lim_minus (re d T a tm) (fun _ => tm)); [now apply re_next|apply derivable_pt_lim_const].
  - intros c Hc. replace (d * - re d T (a + 1) tm1 c) with (- d * re d T (a + 1) tm1 c) by ring. now apply im_next.
  - intros c Hc. rewrite Cmod_scale2, Cmod_turn by lra. rewrite pow_O, Rmult_1_r. apply Rmult_le_compat_l; [lra|]. apply mod_bound; [lra|now apply next_nonneg].
Qed.
End Bounds.
Section Bounds2.
Variables (d T a tm : R).
Hypothesis (HT : 0 < T) (Hd : 0 < d) (Ha : 0 <= a) (Htm : 0 <= tm).
Local Notation tm1 := (tm * a / T).
Local Notation tm2 := (tm1 * (a + 1) / T).
Local Notation tm3 := (tm2 * (a + 1 + 1) / T).
Lemma second_order q : 0 < q -> Cmod (tm - re d T a tm q, - (q * d) * tm1 - im d T a tm q) <= tm2 * (q * d) ^ 2 / 2.
Proof.
  intros Hq. pose proof (cgrow (fun q => tm - re d T a tm q) (fun q => - (q * d) * tm1 - im d T a tm q)
    (fun q => d * - im d T (a + 1) tm1 q) (fun q => d * (re d T (a + 1) tm1 q - tm1)) (d * (d * tm2)) 1) as G.
  replace (tm2 * (q * d) ^ 2 / 2) with (d * (d * tm2) * q ^ 2 / INR 2) by (replace (INR 2) with 2 by (cbn; ring); field; lra).
  apply G; [rewrite re_0 by exact HT; ring|rewrite im_0 by exact HT; ring| | | |exact Hq].
  - intros c Hc. replace (d * - im d T (a + 1) tm1 c) with (0 - d * im d T (a + 1) tm1 c) by ring.
    apply (derivable_pt_lim_minus (fun _ => tm) (re d T a tm)); [apply derivable_pt_lim_const|now apply re_next].
  - intros c Hc. replace (d * (re d T (a + 1) tm1 c - tm1)) with ((- d * tm1) - (- d * re d T (a + 1) tm1 c)) by ring.
    apply (derivable_pt_lim_minus (fun q => - (q * d) * tm1) (im d T a tm)); [|now apply im_next].
    apply (derivable_pt_lim_ext (fun q => (- d * tm1) * q)); [intros; ring|apply d_id].
  - intros c Hc. rewrite Cmod_scale2 by lra. rewrite pow_1.
    destruct (Req_dec c 0) as [-> | Hc0].
    + rewrite re_0, im_0 by exact HT. rewrite Ropp_0. replace (tm1 - tm1) with 0 by ring. change (0, 0) with (RtoC 0). rewrite Cmod_0. lra.
    + pose proof (first_order d T (a + 1) tm1 HT Hd ltac:(lra) (next_nonneg T HT tm a Htm Ha) c ltac:(lra)) as F. rewrite Cmod_turn'.
      replace (d * (d * tm2) * c) with (d * (tm2 * (c * d))) by ring. apply Rmult_le_compat_l; [lra|exact F].
Qed.
Lemma third_inner q : 0 < q ->
  Cmod (- im d T (a + 1) tm1 q - q * d * re d T (a + 1 + 1) tm2 q, re d T (a + 1) tm1 q - tm1 - q * d * im d T (a + 1 + 1) tm2 q) <= tm3 * (q * d) ^ 2 / 2.
Proof.
  intros Hq. pose proof (cgrow (fun q => - im d T (a + 1) tm1 q - q * d * re d T (a + 1 + 1) tm2 q) (fun q => re d T (a + 1) tm1 q - tm1 - q * d * im d T (a + 1 + 1) tm2 q)
    (fun q => (q * d * d) * - im d T (a + 1 + 1 + 1) tm3 q) (fun q => (q * d * d) * re d T (a + 1 + 1 + 1) tm3 q) (d * d * tm3) 1) as G.
  replace (tm3 * (q * d) ^ 2 / 2) with (d * d * tm3 * q ^ 2 / INR 2) by (replace (INR 2) with 2 by (cbn; ring); field; lra).
  apply G; [rewrite re_0, im_0 by exact HT; ring|rewrite re_0, im_0 by exact HT; ring| | | |exact Hq].
  - intros c Hc. replace (c * d * d * - im d T (a + 1 + 1 + 1) tm3 c)
      with ((- (- d * re d T (a + 1 + 1) tm2 c)) - (d * re d T (a + 1 + 1) tm2 c + c * d * (d * im d T (a + 1 + 1 + 1) tm3 c))) by ring.
    apply (derivable_pt_lim_minus (fun q => - im d T (a + 1) tm1 q) (fun q => q * d * re d T (a + 1 + 1) tm2 q)).
    + apply (derivable_pt_lim_opp (im d T (a + 1) tm1)). now apply im_next.
    + apply (derivable_pt_lim_mult (fun q => q * d) (re d T (a + 1 + 1) tm2)); [|now apply re_next].
      apply (derivable_pt_lim_ext (fun q => d * q)); [intros; ring|apply d_id].
  - intros c Hc. replace (c * d * d * re d T (a + 1 + 1 + 1) tm3 c)
      with ((d * im d T (a + 1 + 1) tm2 c - 0) - (d * im d T (a + 1 + 1) tm2 c + c * d * (- d * re d T (a + 1 + 1 + 1) tm3 c))) by ring.
    apply (derivable_pt_lim_minus (fun q => re d T (a + 1) tm1 q - tm1) (fun q => q * d * im d T (a + 1 + 1) tm2 q)).
    + apply (derivable_pt_lim_minus (re d T (a + 1) tm1) (fun _ => tm1)); [now apply re_next|apply derivable_pt_lim_const].
    + apply (derivable_pt_lim_mult (fun q => q * d) (im d T (a + 1 + 1) tm2)); [|now apply im_next].
      apply (derivable_pt_lim_ext (fun q => d * q)); [intros; ring|apply d_id].
  - intros c Hc. assert (0 <= c * d * d) by (apply Rmult_le_pos; [apply Rmult_le_pos|]; lra). rewrite Cmod_scale2 by assumption. rewrite pow_1.
    replace (d * d * tm3 * c) with (c * d * d * tm3) by ring. apply Rmult_le_compat_l; [assumption|]. rewrite Cmod_turn'. apply mod_bound; [lra|].
    apply next_nonneg; [exact HT| |lra]. apply next_nonneg; [exact HT| |lra]. now apply next_nonneg.
Qed.
Lemma third_order q : 0 < q ->
  Cmod (tm - re d T a tm q + q * d * im d T (a + 1) tm1 q / 2, - (q * d) * tm1 / 2 - im d T a tm q - q * d * re d T (a + 1) tm1 q / 2) <= tm3 * (q * d) ^ 3 / 12.
Proof.
  intros Hq. pose proof (cgrow (fun q => tm - re d T a tm q + q * d * im d T (a + 1) tm1 q / 2) (fun q => - (q * d) * tm1 / 2 - im d T a tm q - q * d * re d T (a + 1) tm1 q / 2)
    (fun q => (d / 2) * (- im d T (a + 1) tm1 q - q * d * re d T (a + 1 + 1) tm2 q)) (fun q => (d / 2) * (re d T (a + 1) tm1 q - tm1 - q * d * im d T (a + 1 + 1) tm2 q)) (d * d * d * tm3 / 4) 2) as G.
  replace (tm3 * (q * d) ^ 3 / 12) with (d * d * d * tm3 / 4 * q ^ 3 / INR 3) by (replace (INR 3) with 3 by (cbn; ring); field; lra).
  apply G; [rewrite re_0, im_0 by exact HT; field; lra|rewrite re_0, im_0 by exact HT; field; lra| | | |exact Hq].
  - intros c Hc. replace (d / 2 * (- im d T (a + 1) tm1 c - c * d * re d T (a + 1 + 1) tm2 c))
      with ((0 - d * im d T (a + 1) tm1 c) + / 2 * (d * im d T (a + 1) tm1 c + c * d * (- d * re d T (a + 1 + 1) tm2 c))) by (field; lra).
    apply (derivable_pt_lim_plus (fun q => tm - re d T a tm q) (fun q => q * d * im d T (a + 1) tm1 q / 2)).
    + apply (derivable_pt_lim_minus (fun _ => tm) (re d T a tm)); [apply derivable_pt_lim_const|now apply re_next].
    + apply (derivable_pt_lim_ext (fun q => / 2 * (q * d * im d T (a + 1) tm1 q))); [intros; unfold Rdiv; ring|].
      apply (derivable_pt_lim_scal (fun q => q * d * im d T (a + 1) tm1 q)).
      apply (derivable_pt_lim_mult (fun q => q * d) (im d T (a + 1) tm1)); [|now apply im_next].
      apply (derivable_pt_lim_ext (fun q => d * q)); [intros; ring|apply d_id].
  - intros c Hc. replace (d / 2 * (re d T (a + 1) tm1 c - tm1 - c * d * im d T (a + 1 + 1) tm2 c))
      with ((- d * tm1 / 2) - (- d * re d T (a + 1) tm1 c) - / 2 * (d * re d T (a + 1) tm1 c + c * d * (d * im d T (a + 1 + 1) tm2 c))) by (field; lra).
    apply (derivable_pt_lim_minus (fun q => - (q * d) * tm1 / 2 - im d T a tm q) (fun q => q * d * re d T (a + 1) tm1 q / 2)).
    + apply (derivable_pt_lim_minus (fun q => - (q * d) * tm1 / 2) (im d T a tm)); [|now apply im_next].
      apply (derivable_pt_lim_ext (fun q => (- d * tm1 / 2) * q)); [intros; unfold Rdiv; ring|apply d_id].
    + apply (derivable_pt_lim_ext (fun q => / 2 * (q * d * re d T (a + 1) tm1 q))); [intros; unfold Rdiv; ring|].
      apply (derivable_pt_lim_scal (fun q => q * d * re d T (a + 1) tm1 q)).
      apply (derivable_pt_lim_mult (fun q => q * d) (re d T (a + 1) tm1)); [|now apply re_next].
      apply (derivable_pt_lim_ext (fun q => d * q)); [intros; ring|apply d_id].
  - intros c Hc. rewrite Cmod_scale2 by lra.
    destruct (Req_dec c 0) as [-> | Hc0].
    + rewrite !re_0, !im_0 by exact HT. replace (- 0 - 0 * d * tm2) with 0 by ring. replace (tm1 - tm1 - 0 * d * 0) with 0 by ring.
      change (0, 0) with (RtoC 0). rewrite Cmod_0. rewrite pow_i by lia. lra.
    + pose proof (third_inner c ltac:(lra)) as F. replace (d * d * d * tm3 / 4 * c ^ 2) with (d / 2 * (tm3 * (c * d) ^ 2 / 2)) by (field; lra).
      apply Rmult_le_compat_l; [lra|exact F].
Qed.
End Bounds2.

(** * The transforms of the code *)
Lemma fm_re_im q k tm m : 0 < sp_pdi k -> fm (sp_x q k) (sp_t k) tm m = (re (sp_d k) (sp_t k + 1) (sp_t k + 1 + m) tm q, im (sp_d k) (sp_t k + 1) (sp_t k + 1 + m) tm q).
Proof.
  intros Hpd. rewrite fm_plus by exact Hpd. unfold re, im. rewrite Rpow_split. reflexivity.
Qed.
Section Sp.
Variable k : species.
Hypothesis Hpd : 0 < sp_pdi k.
Local Notation d := (sp_d k).
Local Notation p := (sp_pdi k).
Local Notation T := (sp_t k + 1).
Lemma T_p : T = / (p ^ 2). Proof. apply sp_t1. Qed.
Lemma p_pos : 0 < p ^ 2. Proof. exact (Dsigma_pos k Hpd). Qed.
Lemma chain0 : 1 * T / T = 1. Proof. pose proof (T_pos k Hpd). field. lra. Qed.
Lemma chain1 : 1 * (T + 1) / T = sp_t2 k. Proof. rewrite (t2_T k Hpd). unfold Rdiv. ring. Qed.
Lemma chain2 : sp_t2 k * (T + 1 + 1) / T = sp_t3 k.
Proof. rewrite (t2_T k Hpd). unfold sp_t3. rewrite sp_t1. pose proof (Dsigma_pos k Hpd). field. lra. Qed.
Lemma f0_ri q : sp_f0 q k = (re d T T 1 q, im d T T 1 q).
Proof. unfold sp_f0. rewrite fm_re_im, tm0, Rplus_0_r by exact Hpd. reflexivity. Qed.
Lemma f1_ri q : sp_f1 q k = (re d T (T + 1) 1 q, im d T (T + 1) 1 q).
Proof. unfold sp_f1. now rewrite fm_re_im, tm1 by exact Hpd. Qed.
Lemma f2_ri q : sp_f2 q k = (re d T (T + 1 + 1) (sp_t2 k) q, im d T (T + 1 + 1) (sp_t2 k) q).
Proof. unfold sp_f2. rewrite fm_re_im by exact Hpd. replace (T + 2) with (T + 1 + 1) by ring. reflexivity. Qed.

Lemma moments q :
  (sp_f0 0 k = RtoC 1 /\ sp_f1 0 k = RtoC 1 /\ sp_f2 0 k = RtoC (1 + p ^ 2)) /\
  (derivable_pt_lim (fun u => fst (sp_f0 u k)) q (d * snd (sp_f1 q k)) /\ derivable_pt_lim (fun u => snd (sp_f0 u k)) q (- d * fst (sp_f1 q k))) /\
  (derivable_pt_lim (fun u => fst (sp_f1 u k)) q (d * snd (sp_f2 q k)) /\ derivable_pt_lim (fun u => snd (sp_f1 u k)) q (- d * fst (sp_f2 q k))).
Proof.
  pose proof (T_pos k Hpd) as HT. split; [|split].
  - rewrite f0_ri, f1_ri, f2_ri, !re_0, !im_0 by exact HT. split; [reflexivity|]. split; [reflexivity|].
    unfold sp_t2, Dsigma. rewrite Rplus_comm. reflexivity.
  - rewrite f1_ri. cbn [fst snd]. split.
    + apply (derivable_pt_lim_ext (re d T T 1)); [intros u; now rewrite f0_ri|]. pose proof (re_next d T T 1 q HT) as X. rewrite chain0 in X. exact X.
    + apply (derivable_pt_lim_ext (im d T T 1)); [intros u; now rewrite f0_ri|]. pose proof (im_next d T T 1 q HT) as X. rewrite chain0 in X. exact X.
  - rewrite f2_ri. cbn [fst snd]. split.
    + apply (derivable_pt_lim_ext (re d T (T + 1) 1)); [intros u; now rewrite f1_ri|]. pose proof (re_next d T (T + 1) 1 q HT) as X. rewrite chain1 in X. exact X.
    + apply (derivable_pt_lim_ext (im d T (T + 1) 1)); [intros u; now rewrite f1_ri|]. pose proof (im_next d T (T + 1) 1 q HT) as X. rewrite chain1 in X. exact X.
Qed.
(** each order is the previous one divided by 1 + i q d p^2 *)
Lemma divide a tm q :
  Cmult (1, q * d * p ^ 2) (re d T (a + 1) tm q, im d T (a + 1) tm q) = (re d T a tm q, im d T a tm q).
Proof.
  pose proof (T_pos k Hpd) as HT. pose proof p_pos as Hp.
  unfold re, im. set (tau := q * d / T). assert (Et : q * d * p ^ 2 = tau). { unfold tau. rewrite T_p. field. intros E. rewrite E in Hp. lra. } rewrite Et.
  set (r := sqrt (1 + tau ^ 2)). set (t := atan tau).
  assert (Hp' : 0 < 1 + tau ^ 2) by (pose proof (pow2_ge_0 tau); lra).
  assert (Hr : 0 < r) by (now apply sqrt_lt_R0). assert (Hrr : r * r = 1 + tau ^ 2) by (apply sqrt_sqrt; lra).
  assert (Hcos : cos t = / r). { unfold t, r. rewrite cos_atan. unfold Rdiv. rewrite Rmult_1_l. repeat f_equal. unfold Rsqr. ring. }
  assert (Hsin : sin t = tau / r). { unfold t, r. rewrite sin_atan. repeat f_equal. unfold Rsqr. ring. }
  replace (- (a + 1)) with (- a + - (1)) by ring. rewrite Rpower_plus, (Rpower_Ropp r 1), Rpower_1 by exact Hr.
  replace ((a + 1) * t) with (a * t + t) by ring. rewrite sin_plus, cos_plus, Hcos, Hsin. unfold Cmult. cbn [fst snd].
  set (P := Rpower r (- a)). set (cs := cos (a * t)). set (sn := sin (a * t)).
  apply (f_equal2 pair).
  - transitivity (tm * P * cs * ((1 + tau ^ 2) / (r * r))); [field; lra|]. rewrite Hrr. field. lra.
  - transitivity (- (tm * P * sn * ((1 + tau ^ 2) / (r * r)))); [field; lra|]. rewrite Hrr. field. lra.
Qed.
Lemma orders_related q :
  Cmult (1, q * d * p ^ 2) (sp_f1 q k) = sp_f0 q k /\ Cmult (1, q * d * p ^ 2) (sp_f2 q k) = Cmult (RtoC (1 + p ^ 2)) (sp_f1 q k).
Proof.
  rewrite f0_ri, f1_ri, f2_ri. split; [apply divide|].
  rewrite divide. unfold re, im, Cmult, RtoC. cbn [fst snd].
  replace (1 + p ^ 2) with (sp_t2 k) by (unfold sp_t2, Dsigma; ring). apply (f_equal2 pair); ring.
Qed.
Lemma inverse_conj q : sp_f0i q k = sp_f0 (- q) k /\ sp_f1i q k = sp_f1 (- q) k /\ sp_f2i q k = sp_f2 (- q) k.
Proof.
  assert (E : Copp (sp_x q k) = sp_x (- q) k) by (unfold sp_x, Copp, Cmult, RtoC; cbn [fst snd]; apply (f_equal2 pair); ring).
  unfold sp_f0i, sp_f1i, sp_f2i, sp_f0, sp_f1, sp_f2. rewrite E. now repeat split.
Qed.

Hypothesis Hd : 0 < d.
Lemma x_mod q : 0 < q -> Cmod (sp_x q k) = q * d.
Proof. intros Hq. unfold sp_x. rewrite Cmod_mult, Cmod_s, Cmod_R, Rabs_pos_eq by lra. reflexivity. Qed.
Lemma x_nz q : 0 < q -> sp_x q k <> RtoC 0.
Proof. intros Hq E. pose proof (x_mod q Hq) as X. rewrite E, Cmod_0 in X. assert (0 < q * d) by (now apply Rmult_lt_0_compat). lra. Qed.
Lemma over3 q B z : 0 < q -> Cmod z <= B * (q * d) ^ 3 / 12 ->
  Cmod (Cmult (Cdiv (RtoC 1) (Cmult (Cmult (sp_x q k) (sp_x q k)) (sp_x q k))) z) <= B / 12.
Proof.
  intros Hq Hz. pose proof (x_nz q Hq) as Hx. assert (H0 : 0 < q * d) by (now apply Rmult_lt_0_compat). rewrite Cmod_mult, Cmod_div by (apply Cmult_neq_0; [apply Cmult_neq_0|]; exact Hx).
  rewrite Cmod_1, !Cmod_mult, x_mod by exact Hq. 
  apply Rle_trans with (1 / (q * d * (q * d) * (q * d)) * (B * (q * d) ^ 3 / 12)).
  - apply Rmult_le_compat_l; [|exact Hz]. left. apply Rmult_lt_0_compat; [lra|]. apply Rinv_0_lt_compat. repeat apply Rmult_lt_0_compat; lra.
  - right. field. lra.
Qed.
Lemma over2 q B z : 0 < q -> Cmod z <= B * (q * d) ^ 2 / 2 ->
  Cmod (Cmult (Cdiv (RtoC 1) (Cmult (sp_x q k) (sp_x q k))) z) <= B / 2.
Proof.
  intros Hq Hz. pose proof (x_nz q Hq) as Hx. assert (H0 : 0 < q * d) by (now apply Rmult_lt_0_compat). rewrite Cmod_mult, Cmod_div by (apply Cmult_neq_0; exact Hx).
  rewrite Cmod_1, !Cmod_mult, x_mod by exact Hq. 
  apply Rle_trans with (1 / (q * d * (q * d)) * (B * (q * d) ^ 2 / 2)).
  - apply Rmult_le_compat_l; [|exact Hz]. left. apply Rmult_lt_0_compat; [lra|]. apply Rinv_0_lt_compat. repeat apply Rmult_lt_0_compat; lra.
  - right. field. lra.
Qed.
Ltac comp := unfold sp_x, Cdiv; rewrite <- ?RtoC_inv by lra; unfold Cminus, Cplus, Copp, Cmult, RtoC; cbn [fst snd]; apply (f_equal2 pair); field.
Lemma fa_bound q : 0 < q -> Cmod (sp_fa q k) <= (1 + p ^ 2) * (1 + 2 * p ^ 2) / 12.
Proof.
  intros Hq. pose proof (T_pos k Hpd) as HT. unfold sp_fa. apply over3; [exact Hq|].
  pose proof (third_order d T T 1 HT Hd ltac:(lra) ltac:(lra) q Hq) as X. rewrite chain0, chain1, chain2 in X.
  replace ((1 + p ^ 2) * (1 + 2 * p ^ 2)) with (sp_t3 k) by (unfold sp_t3, Dsigma; ring).
  rewrite f0_ri, f1_ri. eapply Rle_trans; [|exact X]. right. apply f_equal. comp.
Qed.
Lemma fb_bound q : 0 < q -> Cmod (sp_fb q k) <= (1 + p ^ 2) * (1 + 2 * p ^ 2) * (1 + 3 * p ^ 2) / 12.
Proof.
  intros Hq. pose proof (T_pos k Hpd) as HT. unfold sp_fb. apply over3; [exact Hq|].
  pose proof (third_order d T (T + 1) 1 HT Hd ltac:(lra) ltac:(lra) q Hq) as X. rewrite chain1, chain2 in X.
  replace ((1 + p ^ 2) * (1 + 2 * p ^ 2) * (1 + 3 * p ^ 2)) with (sp_t3 k * (T + 1 + 1 + 1) / T).
  2:{ unfold sp_t3, Dsigma. rewrite T_p. pose proof p_pos. field. intros E. rewrite E in *. lra. }
  rewrite f1_ri, f2_ri. eapply Rle_trans; [|exact X]. right. apply f_equal. comp.
Qed.
Lemma fc_bound q : 0 < q -> Cmod (sp_fc q k) <= (1 + p ^ 2) / 2.
Proof.
  intros Hq. pose proof (T_pos k Hpd) as HT. unfold sp_fc. apply over2; [exact Hq|].
  pose proof (second_order d T T 1 HT Hd ltac:(lra) ltac:(lra) q Hq) as X. rewrite chain0, chain1 in X.
  replace (1 + p ^ 2) with (sp_t2 k) by (unfold sp_t2, Dsigma; ring).
  rewrite f0_ri. eapply Rle_trans; [|exact X]. right. apply f_equal. comp.
Qed.
Lemma fd_bound q : 0 < q -> Cmod (sp_fd q k) <= (1 + p ^ 2) * (1 + 2 * p ^ 2) / 2.
Proof.
  intros Hq. pose proof (T_pos k Hpd) as HT. unfold sp_fd. apply over2; [exact Hq|].
  pose proof (second_order d T (T + 1) 1 HT Hd ltac:(lra) ltac:(lra) q Hq) as X. rewrite chain1, chain2 in X.
  replace ((1 + p ^ 2) * (1 + 2 * p ^ 2)) with (sp_t3 k) by (unfold sp_t3, Dsigma; ring).
  rewrite f1_ri. eapply Rle_trans; [|exact X]. right. apply f_equal. comp.
Qed.
End Sp.
