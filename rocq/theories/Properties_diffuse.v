(** C161: the random walk of light. *)
From Coq Require Import Lra Lia Psatz Reals List.
From Verif Require Import Num Spec Spec_scat Spec_mean Spec_local Spec_diffuse M_init M_montecarlo M_scat L_num L_sampling L_mean L_periodic L_local L_local2 L_montecarlo L_diffuse Properties_local.
From Coquelicot Require Import Coquelicot.
Import ListNotations.
Open Scope R_scope.

(** ** Helpers *)
Definition linear (c : vec -> R) : Prop := c vzero = 0 /\ (forall a b, c (vadd a b) = c a + c b) /\ (forall s a, c (vscale s a) = s * c a).
Lemma linear_vx : linear vx. Proof. split; [reflexivity|split; reflexivity]. Qed.
Lemma linear_vy : linear vy. Proof. split; [reflexivity|split; reflexivity]. Qed.
Lemma linear_vz : linear vz. Proof. split; [reflexivity|split; reflexivity]. Qed.
Lemma vcumsum_nth c : linear c -> forall l acc i, (i < length l)%nat -> c (nth i (vcumsum_from acc l) vzero) = c acc + total (firstn (S i) (map c l)).
Proof.
  intros (_ & A & _). induction l as [|v l IH]; intros acc i Hi; cbn [length] in Hi; [lia|].
  cbn [vcumsum_from map firstn total]. destruct i as [|i]; cbn [nth].
  - cbn [firstn total]. rewrite A. ring.
  - rewrite IH by lia. rewrite A. ring.
Qed.
Lemma firstn_map_seq (g : nat -> R) m n : (m <= n)%nat -> firstn m (map g (seq 0 n)) = map g (seq 0 m).
Proof.
  intros H. rewrite firstn_map. f_equal. replace n with (m + (n - m))%nat by lia. rewrite seq_app, firstn_app, seq_length, Nat.sub_diag, firstn_O, app_nil_r. apply firstn_all2. rewrite seq_length. lia.
Qed.
Lemma map2_map_seq (s : nat -> R) (k : nat -> vec) l : map2 (fun s k => vscale s k) (map s l) (map k l) = map (fun j => vscale (s j) (k j)) l.
Proof. induction l as [|i l IH]; [reflexivity|]. cbn [map map2]. now rewrite IH. Qed.
Lemma walk_sum c (s : nat -> R) ang n m : linear c -> (m <= S n)%nat ->
  c (nth m (move (vzero :: repeat vzero (S n)) (scattered (0, 0, 1) n ang) (map s (seq 0 (S n)))) vzero)
  = total (map (fun j => s j * c (scat_dir (0, 0, 1) ang j)) (seq 0 m)).
Proof.
  intros L Hm. unfold move. rewrite scattered_fun, map2_map_seq, vcumsum_nth; [|exact L|cbn [length]; rewrite map_length, seq_length; lia].
  destruct L as (Z & A & B). rewrite Z. cbn [map firstn total]. rewrite Z, map_map, firstn_map_seq by lia.
  rewrite !Rplus_0_l. f_equal. apply map_ext. intros j. apply B.
Qed.
Lemma share_total p lo : 0 < total (map (angle_weight p lo) (seq 0 (length p))) -> total (map (share (angle_weight p lo) (length p)) (seq 0 (length p))) = 1.
Proof.
  intros H. unfold share. set (s := total _) in *. transitivity (/ s * s); [|field; lra]. unfold s at 3. clearbody s.
  induction (seq 0 (length p)) as [|i l IH]; cbn [map total]; [ring|]. rewrite IH. unfold Rdiv. ring.
Qed.
(** |g| < 1: the two poles have no solid angle. *)
Lemma asymmetry_lt p lo : 0 <= lo <= PI -> List.Forall (fun x => 0 <= x) p -> 0 < total (map (angle_weight p lo) (seq 0 (length p))) -> -1 < asymmetry p lo < 1.
Proof.
  intros Hlo Hp Ht. pose proof (share_total p lo Ht) as S1. unfold asymmetry, average.
  assert (W : forall i, In i (seq 0 (length p)) -> 0 <= share (angle_weight p lo) (length p) i /\ (share (angle_weight p lo) (length p) i = 0 \/ -1 < cos (grid lo PI (length p) i) < 1)).
  { intros i Hi. apply in_seq in Hi. pose proof (w_pos p lo Hlo Hp i ltac:(lia)) as W0. split.
    - unfold share. apply Rmult_le_pos; [exact W0|left; apply Rinv_0_lt_compat, Ht].
    - destruct (Req_dec (sin (grid lo PI (length p) i)) 0) as [E|E].
      + left. unfold share, angle_weight at 1. rewrite E. unfold Rdiv. ring.
      + right. pose proof (sin2_cos2 (grid lo PI (length p) i)) as Q. unfold Rsqr in Q. pose proof (Rsqr_pos_lt _ E) as P. unfold Rsqr in P. split; nra. }
  revert S1 W. set (sh := share _ _). clearbody sh. generalize (seq 0 (length p)). intros l S1 W.
  assert (G : forall l, (forall i, In i l -> 0 <= sh i /\ (sh i = 0 \/ -1 < cos (grid lo PI (length p) i) < 1)) ->
     0 <= total (map sh l) /\ - total (map sh l) <= total (map (fun i => sh i * cos (grid lo PI (length p) i)) l) <= total (map sh l) /\
     (0 < total (map sh l) -> - total (map sh l) < total (map (fun i => sh i * cos (grid lo PI (length p) i)) l) < total (map sh l))).
  { clear l S1 W. induction l as [|i l IH]; intros W; cbn [map total]; [lra|].
    destruct (IH ltac:(intros; apply W; now right)) as (I0 & I1 & I2). destruct (W i (or_introl eq_refl)) as [W0 [W1|W1]].
    - rewrite W1, !Rmult_0_l, !Rplus_0_l. auto.
    - destruct (Req_dec (sh i) 0) as [Z|Z].
      + rewrite Z, !Rmult_0_l, !Rplus_0_l. auto.
      + assert (0 < sh i) by lra. assert (- sh i < sh i * cos (grid lo PI (length p) i) < sh i) by (split; nra). lra. }
  destruct (G l W) as (_ & _ & Q). rewrite S1 in Q. apply Q. lra.
Qed.

(** The mean position after [m] events of a trajectory that starts at the
    origin along +z, with given steps s 0, s 1, ... and angles drawn from the
    table: on the z axis, at depth sum of s_j g^j, g the asymmetry parameter of
    the table. *)
Theorem C161_mean_position : forall p lo (s : nat -> R) n m,
  0 <= lo <= PI -> List.Forall (fun x => 0 <= x) p -> 0 < total (map (angle_weight p lo) (seq 0 (length p))) -> (m <= S n)%nat ->
  let pos t := nth m (move (vzero :: repeat vzero (S n)) (scattered (0, 0, 1) n (drawn_angles p lo t)) (map s (seq 0 (S n)))) vzero in
  is_mean (2 * n) (fun t => vx (pos t)) 0 /\ is_mean (2 * n) (fun t => vy (pos t)) 0
  /\ is_mean (2 * n) (fun t => vz (pos t)) (total (map (fun j => s j * asymmetry p lo ^ j) (seq 0 m))).
Proof.
  intros p lo s n m Hlo Hp Ht Hm pos.
  assert (E : forall c, linear c -> forall t, c (pos t) = total (map (fun j => s j * c (K (polar p lo) t j)) (seq 0 m))).
  { intros c L t. unfold pos. rewrite walk_sum by assumption. f_equal. apply map_ext. intros j. f_equal. f_equal.
    unfold K. assert (G : forall ang ang' j, (forall i, ang i = ang' i) -> scat_dir (0, 0, 1) ang j = scat_dir (0, 0, 1) ang' j).
    { intros ang ang' k H. induction k as [|k IH]; [reflexivity|]. cbn [scat_dir]. now rewrite IH, H. }
    apply G. intros i. apply (drawn_ok p lo Hlo Hp Ht). }
  assert (C : forall c (mu : nat -> R), linear c -> (forall j, (j <= n)%nat -> is_mean (2 * n) (fun t => c (K (polar p lo) t j)) (mu j)) ->
     is_mean (2 * n) (fun t => c (pos t)) (total (map (fun j => s j * mu j) (seq 0 m)))).
  { intros c mu L H. apply (is_mean_ext _ (fun t => total (map (fun j => s j * c (K (polar p lo) t j)) (seq 0 m)))); [intros t; symmetry; apply E, L|].
    apply (is_mean_total (2 * n) (fun j t => s j * c (K (polar p lo) t j)) (fun j => s j * mu j)). intros j Hj. apply in_seq in Hj. apply is_mean_scal, H. lia. }
  assert (Z : total (map (fun j => s j * 0) (seq 0 m)) = 0) by (generalize (seq 0 m); intros l; induction l as [|i l IH]; cbn [map total]; [reflexivity|rewrite IH; ring]).
  pose proof (mean_comp (polar p lo) (average p lo) (polar_integral p lo Hlo Hp Ht)) as MC.
  split; [|split].
  - rewrite <- Z. apply (C vx (fun _ => 0) linear_vx). intros j Hj. apply (MC j n Hj).
  - rewrite <- Z. apply (C vy (fun _ => 0) linear_vy). intros j Hj. apply (MC j n Hj).
  - apply (C vz (fun j => asymmetry p lo ^ j) linear_vz). intros j Hj. apply (MC j n Hj).
Qed.
Print Assumptions C161_mean_position.

(** The spread: the mean square of each z component, and of the depth. *)
Theorem C161_spread : forall p lo (s : nat -> R) n m,
  0 <= lo <= PI -> List.Forall (fun x => 0 <= x) p -> 0 < total (map (angle_weight p lo) (seq 0 (length p))) -> (m <= S n)%nat ->
  let dirs t := scattered (0, 0, 1) n (drawn_angles p lo t) in
  let pos t := nth m (move (vzero :: repeat vzero (S n)) (dirs t) (map s (seq 0 (S n)))) vzero in
  (forall j, (j <= n)%nat -> is_mean (2 * n) (fun t => vz (nth j (dirs t) vzero) ^ 2) ((1 + 2 * second_moment p lo ^ j) / 3))
  /\ is_mean (2 * n) (fun t => vz (pos t) ^ 2)
       (total (map (fun i => total (map (fun j => s i * s j * z_correlation (asymmetry p lo) (second_moment p lo) i j) (seq 0 m))) (seq 0 m))).
Proof.
  intros p lo s n m Hlo Hp Ht Hm dirs pos.
  assert (G : forall ang ang' j, (forall i, ang i = ang' i) -> scat_dir (0, 0, 1) ang j = scat_dir (0, 0, 1) ang' j).
  { intros ang ang' k H. induction k as [|k IH]; [reflexivity|]. cbn [scat_dir]. now rewrite IH, H. }
  assert (EK : forall t j, scat_dir (0, 0, 1) (drawn_angles p lo t) j = K (polar p lo) t j) by (intros t j; apply G; intros i; apply (drawn_ok p lo Hlo Hp Ht)).
  pose proof (mean_zz_corr (polar p lo) (average p lo) (polar_integral p lo Hlo Hp Ht)) as MC.
  split.
  - intros j Hj. pose proof (MC j j n Hj Hj) as Q. unfold z_correlation in Q. rewrite Nat.max_id, Nat.min_id, Nat.sub_diag in Q. cbn [pow] in Q. rewrite Rmult_1_l in Q.
    refine (is_mean_ext _ _ _ _ _ Q). intros t. unfold dirs. rewrite scattered_fun, nth_seq, EK by lia. ring.
  - apply (is_mean_ext _ (fun t => total (map (fun i => total (map (fun j => s i * s j * (vz (K (polar p lo) t i) * vz (K (polar p lo) t j))) (seq 0 m))) (seq 0 m)))).
    { intros t. unfold pos, dirs. rewrite walk_sum by (exact linear_vz || exact Hm). rewrite total_square. f_equal. apply map_ext. intros i. f_equal. apply map_ext. intros j. rewrite !EK. ring. }
    apply (is_mean_total (2 * n) (fun i t => total (map (fun j => s i * s j * (vz (K (polar p lo) t i) * vz (K (polar p lo) t j))) (seq 0 m)))
      (fun i => total (map (fun j => s i * s j * z_correlation (asymmetry p lo) (second_moment p lo) i j) (seq 0 m)))).
    intros i Hi. apply in_seq in Hi.
    apply (is_mean_total (2 * n) (fun j t => s i * s j * (vz (K (polar p lo) t i) * vz (K (polar p lo) t j)))
      (fun j => s i * s j * z_correlation (asymmetry p lo) (second_moment p lo) i j)).
    intros j Hj. apply in_seq in Hj. apply is_mean_scal, MC; lia.
Qed.
Print Assumptions C161_spread.

Lemma geometric g m : g <> 1 -> total (map (fun j => g ^ j) (seq 0 m)) = (1 - g ^ m) / (1 - g).
Proof.
  intros H. induction m as [|m IH]; [cbn; field; lra|]. rewrite seq_S, map_app, total_app, IH. cbn [Nat.add map total pow]. field. lra.
Qed.
(** With steps of the mean length 1/mu, the mean depth tends to the transport
    length 1 / (mu (1 - g)); the asymmetry parameter of a table is always
    strictly between -1 and 1. *)
Theorem C161_transport_length : forall p lo mu,
  0 <= lo <= PI -> List.Forall (fun x => 0 <= x) p -> 0 < total (map (angle_weight p lo) (seq 0 (length p))) -> 0 < mu ->
  -1 < asymmetry p lo < 1
  /\ is_lim_seq (fun m => total (map (fun j => 1 / mu * asymmetry p lo ^ j) (seq 0 m))) (1 / (mu * (1 - asymmetry p lo))).
Proof.
  intros p lo mu Hlo Hp Ht Hmu. pose proof (asymmetry_lt p lo Hlo Hp Ht) as A. split; [exact A|]. set (g := asymmetry p lo) in *. clearbody g.
  apply (is_lim_seq_ext (fun m => 1 / (mu * (1 - g)) - 1 / (mu * (1 - g)) * g ^ m)).
  - intros m. transitivity (1 / mu * total (map (fun j => g ^ j) (seq 0 m))).
    + rewrite geometric by lra. field. lra.
    + generalize (seq 0 m). intros l. induction l as [|i l IH]; cbn [map total]; [ring|]. rewrite Rmult_plus_distr_l, IH. reflexivity.
  - pose proof (is_lim_seq_geom g ltac:(apply Rabs_def1; lra)) as L.
    pose proof (is_lim_seq_minus' _ _ _ _ (is_lim_seq_const (1 / (mu * (1 - g)))) (is_lim_seq_mult' _ _ _ _ (is_lim_seq_const (1 / (mu * (1 - g)))) L)) as Q.
    rewrite Rmult_0_r, Rminus_0_r in Q. exact Q.
Qed.
Print Assumptions C161_transport_length.

Lemma step_integral mu b : 0 < mu -> 0 <= b < 1 -> is_RInt (step_of mu) 0 b (((1 - b) * ln (1 - b) + b) / mu).
Proof.
  intros Hmu Hb.
  assert (Q : is_RInt (step_of mu) 0 b (minus (((1 - b) * ln (1 - b) + b) / mu) (((1 - 0) * ln (1 - 0) + 0) / mu))).
  { refine (is_RInt_derive (fun u => ((1 - u) * ln (1 - u) + u) / mu) (step_of mu) 0 b _ _).
    - intros x Hx. rewrite Rmin_left, Rmax_right in Hx by lra. unfold step_of. auto_derive; [lra|]. replace (1 + - x) with (1 - x) by ring. field. lra.
    - intros x Hx. rewrite Rmin_left, Rmax_right in Hx by lra. apply (ex_derive_continuous (step_of mu)). unfold step_of. auto_derive. lra. }
  refine (eq_ind _ (fun v => is_RInt (step_of mu) 0 b v) Q _ _).
  change (((1 - b) * ln (1 - b) + b) / mu - ((1 - 0) * ln (1 - 0) + 0) / mu = ((1 - b) * ln (1 - b) + b) / mu).
  rewrite Rminus_0_r, ln_1. field. lra.
Qed.
Lemma xlnx x : 0 < x < 1 -> - (2 * sqrt x) <= x * ln x <= 0.
Proof.
  intros [H1 H2]. pose proof (sqrt_lt_R0 x H1) as S0. pose proof (sqrt_sqrt x (Rlt_le _ _ H1)) as SS.
  assert (L1 : ln x <= 0) by (rewrite <- ln_1; apply Rcomplements.ln_le; lra).
  assert (E : ln x = 2 * ln (sqrt x)) by (rewrite <- SS at 1; rewrite ln_mult by exact S0; ring).
  assert (L2 : - ln (sqrt x) <= / sqrt x - 1).
  { rewrite <- ln_Rinv by exact S0. pose proof (exp_ineq1_le (ln (/ sqrt x))) as Q. rewrite exp_ln in Q by (now apply Rinv_0_lt_compat). lra. }
  split; [|nra]. assert (I1 : sqrt x * / sqrt x = 1) by (field; lra).
  assert (M : x * (- ln x) <= x * (2 * (/ sqrt x - 1))) by (apply Rmult_le_compat_l; lra).
  assert (N : x * (2 * (/ sqrt x - 1)) = 2 * sqrt x - 2 * x) by (transitivity (sqrt x * sqrt x * (2 * (/ sqrt x - 1))); [now rewrite SS|transitivity (2 * sqrt x - 2 * (sqrt x * sqrt x)); [field; lra|now rewrite SS]]).
  lra.
Qed.
(** The mean step length is 1/mu: the integral of the step over the random
    numbers from 0 to b tends to it as b tends to 1. *)
Theorem C161_mean_step : forall mu eps, 0 < mu -> 0 < eps ->
  exists b0, b0 < 1 /\ forall b, b0 < b < 1 -> 0 <= b -> exists v, is_RInt (step_of mu) 0 b v /\ Rabs (v - 1 / mu) < eps.
Proof.
  intros mu eps Hmu He. set (d := Rmin 1 (mu * eps / 4)). 
  assert (D0 : 0 < d) by (apply Rmin_pos; [lra|apply Rdiv_lt_0_compat; [now apply Rmult_lt_0_compat|lra]]).
  assert (D1 : d <= 1) by apply Rmin_l. assert (D2 : d <= mu * eps / 4) by apply Rmin_r.
  exists (1 - d ^ 2). split; [assert (0 < d ^ 2) by (apply pow_lt; exact D0); lra|]. intros b Hb Hb0. exists (((1 - b) * ln (1 - b) + b) / mu). split; [apply step_integral; lra|].
  assert (X : 0 < 1 - b < d ^ 2) by lra. clearbody d.
  assert (S1 : sqrt (1 - b) <= d).
  { rewrite <- (sqrt_pow2 d) by lra. apply sqrt_le_1; [lra|apply pow2_ge_0|lra]. }
  assert (X1 : 0 < 1 - b <= d) by nra. 
  assert (Z : - (2 * sqrt (1 - b)) <= (1 - b) * ln (1 - b) <= 0).
  { destruct (Req_dec b 0) as [->|Nb]; [rewrite Rminus_0_r, ln_1; pose proof (sqrt_pos 1); lra|apply xlnx; lra]. }
  replace (((1 - b) * ln (1 - b) + b) / mu - 1 / mu) with (((1 - b) * ln (1 - b) - (1 - b)) * / mu) by (field; lra).
  rewrite Rabs_mult, (Rabs_pos_eq (/ mu)) by (left; now apply Rinv_0_lt_compat).
  apply (Rmult_lt_reg_r mu); [exact Hmu|]. rewrite Rmult_assoc, Rinv_l, Rmult_1_r by lra.
  pose proof (Rmult_lt_0_compat _ _ Hmu He) as ME. apply Rabs_def1; lra.
Qed.
Print Assumptions C161_mean_step.

(** ** Non-vacuity *)
(** Isotropic scattering on the grid of four angles 0, pi/3, 2 pi/3, pi: g = 0,
    and the mean square of the z component is 1/4 (the grid is coarse). *)
Lemma grid4 i : grid 0 PI 4 i = INR i * (PI / 3).
Proof. unfold grid. cbn [Nat.sub]. replace (INR 3) with 3 by (cbn; ring). field. Qed.
Example C161_case : let p := cons 1 (cons 1 (cons 1 (cons 1 nil))) in
  0 <= 0 <= PI /\ List.Forall (fun x => 0 <= x) p /\ 0 < total (map (angle_weight p 0) (seq 0 (length p)))
  /\ asymmetry p 0 = 0 /\ second_moment p 0 = - (1 / 8).
Proof.
  intros p. assert (E0 : grid 0 PI 4 0 = 0) by (rewrite grid4; cbn; ring).
  assert (E1 : grid 0 PI 4 1 = PI / 3) by (rewrite grid4; cbn; ring).
  assert (E2 : grid 0 PI 4 2 = 2 * (PI / 3)) by (rewrite grid4; cbn; ring).
  assert (E3 : grid 0 PI 4 3 = PI) by (rewrite grid4; cbn; field).
  assert (W : map (angle_weight p 0) (seq 0 4) = cons 0 (cons (sqrt 3 / 2) (cons (sqrt 3 / 2) (cons 0 nil)))).
  { unfold angle_weight. change (length p) with 4%nat. cbn [seq map nth p]. rewrite E0, E1, E2, E3, sin_0, sin_PI, sin_2PI3, sin_PI3, !Rmult_1_l. reflexivity. }
  pose proof (sqrt_lt_R0 3 ltac:(lra)) as S3.
  assert (T : total (map (angle_weight p 0) (seq 0 4)) = sqrt 3) by (rewrite W; cbn [total]; field).
  assert (A : forall f, average p 0 f = (f (PI / 3) + f (2 * (PI / 3))) / 2).
  { intros f. unfold average, share. change (length p) with 4%nat. rewrite T.
    change (map (angle_weight p 0) (seq 0 4)) with (cons (angle_weight p 0 0) (cons (angle_weight p 0 1) (cons (angle_weight p 0 2) (cons (angle_weight p 0 3) nil)))) in W.
    injection W as W0 W1 W2 W3. cbn [seq map total]. rewrite W0, W1, W2, W3, E0, E1, E2, E3. field. lra. }
  split; [pose proof PI_RGT_0; lra|]. split; [repeat (apply List.Forall_cons; [lra|]); apply List.Forall_nil|]. split; [change (length p) with 4%nat; lra|].
  unfold asymmetry, second_moment. rewrite !A, cos_PI3, cos_2PI3. split; field.
Qed.
