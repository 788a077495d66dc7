(** Proofs about trajectories and sampling (C12-C21, C63). *)
From Coq Require Import Lra Lia Psatz.
From Verif Require Export M_montecarlo L_num L_init.
Open Scope R_scope.

Lemma cs2 t : sin t * sin t + cos t * cos t = 1.
Proof. pose proof (sin2_cos2 t) as H; unfold Rsqr in H; lra. Qed.

(* ------------------------------------------------------------------ *)
(** * Scattering *)

Lemma scatter1_dot k l t p :
  dot (scatter1 k t p) (scatter1 l t p) = dot k l.
Proof.
  destruct k as [[x y] z], l as [[a b] c]; unfold dot, scatter1; cbn.
  pose proof (cs2 t) as Ht. pose proof (cs2 p) as Hp.
  set (st := sin t) in *; set (ct := cos t) in *; set (sp := sin p) in *; set (cp := cos p) in *.
  transitivity ((sp * sp + cp * cp) * ((x * ct + z * st) * (a * ct + c * st) + y * b)
                + (- x * st + z * ct) * (- a * st + c * ct)); [ring|].
  rewrite Hp.
  transitivity ((st * st + ct * ct) * (x * a + z * c) + y * b); [ring|].
  rewrite Ht; ring.
Qed.

Lemma scatter_loop_norm rest : forall prev angles ks,
  scatter_loop prev rest angles = Ok ks ->
  length ks = length rest /\ Forall (fun k => dot k k = dot prev prev) ks.
Proof.
  induction rest as [|r rest IH]; intros prev angles ks; cbn.
  - intros H; injection H as <-; split; [reflexivity|constructor].
  - destruct angles as [|[t p] angles]; [discriminate|].
    destruct (scatter_loop (scatter1 prev t p) rest angles) as [ks'|e] eqn:E; cbn; [|discriminate].
    intros H; injection H as <-. apply IH in E as [El Ef].
    rewrite scatter1_dot in Ef. split; [cbn; congruence|].
    constructor; [apply scatter1_dot|exact Ef].
Qed.

Lemma scatter_keeps_length k0 rest angles ks :
  scatter (k0 :: rest) angles = Ok ks ->
  hd vzero ks = k0 /\ length ks = S (length rest)
  /\ Forall (fun k => vlen k = vlen k0) ks.
Proof.
  unfold scatter. destruct (scatter_loop k0 rest angles) as [l|e] eqn:E; cbn; [|discriminate].
  intros H; injection H as <-. apply scatter_loop_norm in E as [El Ef].
  split; [reflexivity|]. split; [cbn; congruence|].
  constructor; [reflexivity|]. eapply Forall_impl; [|exact Ef].
  cbn; intros k Hk; unfold vlen; rewrite Hk; reflexivity.
Qed.

Lemma scatter_succeeds k0 rest angles :
  (length rest <= length angles)%nat <-> exists ks, scatter (k0 :: rest) angles = Ok ks.
Proof.
  assert (G : forall rest prev angles, (length rest <= length angles)%nat <->
            exists ks, scatter_loop prev rest angles = Ok ks).
  { clear. induction rest as [|r rest IH]; intros prev angles; cbn.
    - split; intros; [eauto|lia].
    - destruct angles as [|[t p] angles]; cbn.
      + split; [lia|intros [ks H]; discriminate].
      + rewrite <- Nat.succ_le_mono, (IH (scatter1 prev t p)).
        split; intros [ks H].
        * rewrite H; cbn; eauto.
        * destruct (scatter_loop (scatter1 prev t p) rest angles); [eauto|discriminate]. }
  rewrite (G rest k0 angles). unfold scatter. split; intros [ks H].
  - rewrite H; cbn; eauto.
  - destruct (scatter_loop k0 rest angles); [eauto|discriminate].
Qed.

(** Starting along the optical axis the turn is by theta. *)
Lemma scatter_angle_axis c t p :
  (c = 1 \/ c = -1) ->
  dot (scatter1 (0, 0, c) t p) (0, 0, c) = cos t.
Proof. intros [-> | ->]; unfold dot, scatter1; cbn; ring. Qed.

(** Starting elsewhere it is not: exact value of the dot product. *)
Lemma scatter_angle_y t p : dot (scatter1 (0, 1, 0) t p) (0, 1, 0) = cos p.
Proof. unfold dot, scatter1; cbn; ring. Qed.

Lemma scatter_angle_refuted_l :
  exists k0 t p ks, unit k0 /\ scatter [k0; vzero] [(t, p)] = Ok ks
    /\ dot (nth 1 ks vzero) (nth 0 ks vzero) <> cos t.
Proof.
  exists (0, 1, 0), 0, PI. eexists. split; [unfold unit, dot; cbn; ring|].
  split; [reflexivity|]. cbn [nth]. rewrite scatter_angle_y, cos_PI, cos_0. lra.
Qed.

(* ------------------------------------------------------------------ *)
(** * Absorption *)

Lemma cumsum_from_nth l : forall acc i, (i < length l)%nat ->
  nth i (cumsum_from acc l) 0 = acc + total (firstn (S i) l).
Proof.
  induction l as [|x l IH]; intros acc i Hi; cbn in Hi; [lia|].
  destruct i as [|i]; cbn [cumsum_from nth].
  - cbn. lra.
  - rewrite IH by lia. cbn [firstn total]. lra.
Qed.
Lemma cumsum_from_length l : forall acc, length (cumsum_from acc l) = length l.
Proof. induction l; intros; cbn; auto. Qed.

Lemma map2_nth {A B C} (f : A -> B -> C) l m i da db dc :
  (i < length l)%nat -> (i < length m)%nat ->
  nth i (map2 f l m) dc = f (nth i l da) (nth i m db).
Proof.
  revert m i; induction l as [|a l IH]; intros [|b m] [|i] Hl Hm; cbn in *; try lia; auto.
  apply IH; lia.
Qed.

Lemma absorb_nth mu w s i :
  length w = length s -> (i < length s)%nat ->
  nth i (absorb mu w s) 0 = nth i w 0 * exp (- (mu * total (firstn (S i) s))).
Proof.
  intros Hl Hi. unfold absorb.
  rewrite (map2_nth _ _ _ i 0 0 0) by (unfold cumsum; rewrite ?cumsum_from_length; lia).
  unfold cumsum. rewrite cumsum_from_nth by exact Hi. rewrite Rplus_0_l. reflexivity.
Qed.
Lemma absorb_length mu w s : length w = length s -> length (absorb mu w s) = length s.
Proof. intros H. unfold absorb, cumsum. rewrite map2_length, cumsum_from_length. lia. Qed.

Lemma total_firstn_mono s i :
  Forall (fun x => 0 <= x) s -> total (firstn i s) <= total (firstn (S i) s).
Proof.
  revert i; induction s as [|x s IH]; intros i H; [destruct i; cbn; lra|].
  inversion H as [|y l Hx Hs]; subst.
  destruct i as [|i]; [cbn; lra|]. cbn [firstn total]. specialize (IH i Hs).
  cbn [firstn] in IH. lra.
Qed.
Lemma total_firstn_nonneg s i :
  Forall (fun x => 0 <= x) s -> 0 <= total (firstn i s).
Proof.
  intros H. apply total_nonneg. apply Forall_forall. intros x Hx.
  rewrite Forall_forall in H. apply H.
  rewrite <- (firstn_skipn i s). apply in_or_app; auto.
Qed.

Lemma absorb_bounds mu w0 s i :
  0 <= mu -> 0 <= w0 -> Forall (fun x => 0 <= x) s -> (i < length s)%nat ->
  0 <= nth i (absorb mu (repeat w0 (length s)) s) 0 <= w0.
Proof.
  intros Hmu Hw Hs Hi.
  rewrite absorb_nth by (rewrite ?repeat_length; auto).
  rewrite (nth_indep _ 0 w0) by (rewrite repeat_length; exact Hi). rewrite nth_repeat.
  pose proof (total_firstn_nonneg s (S i) Hs).
  assert (0 <= mu * total (firstn (S i) s)) by (apply Rmult_le_pos; auto).
  pose proof (exp_pos (- (mu * total (firstn (S i) s)))).
  assert (exp (- (mu * total (firstn (S i) s))) <= 1).
  { rewrite <- exp_0. destruct (Req_dec (mu * total (firstn (S i) s)) 0) as [->|Hn].
    - rewrite Ropp_0; lra.
    - left; apply exp_increasing; lra. }
  split; [nra|]. nra.
Qed.

Lemma absorb_decreasing mu w0 s i :
  0 <= mu -> 0 <= w0 -> Forall (fun x => 0 <= x) s -> (S i < length s)%nat ->
  nth (S i) (absorb mu (repeat w0 (length s)) s) 0
  <= nth i (absorb mu (repeat w0 (length s)) s) 0.
Proof.
  intros Hmu Hw Hs Hi.
  rewrite !absorb_nth by (rewrite ?repeat_length; auto; lia).
  rewrite !(nth_indep _ 0 w0) by (rewrite repeat_length; lia). rewrite !nth_repeat.
  apply Rmult_le_compat_l; [exact Hw|].
  pose proof (total_firstn_mono s (S i) Hs).
  destruct (Req_dec (mu * total (firstn (S i) s)) (mu * total (firstn (S (S i)) s))) as [->|Hn]; [lra|].
  left; apply exp_increasing.
  assert (mu * total (firstn (S i) s) <= mu * total (firstn (S (S i)) s)) by (apply Rmult_le_compat_l; auto).
  lra.
Qed.

Lemma absorb_zero w s : length w = length s -> absorb 0 w s = w.
Proof.
  intros H. unfold absorb.
  assert (G : forall w s acc, length w = length s ->
     map2 (fun w c => w * exp (- (0 * c))) w (cumsum_from acc s) = w).
  { clear. induction w as [|a w IH]; intros [|b s] acc H; cbn in *; try lia; auto.
    f_equal; [|apply IH; lia]. rewrite Rmult_0_l, Ropp_0, exp_0. ring. }
  apply G; exact H.
Qed.

(* ------------------------------------------------------------------ *)
(** * Moves *)


Lemma vadd_assoc a b c : vadd (vadd a b) c = vadd a (vadd b c).
Proof. destruct a as [[? ?] ?], b as [[? ?] ?], c as [[? ?] ?]; unfold vadd; cbn; f_equal; [f_equal|]; ring. Qed.
Lemma vadd_0_l a : vadd vzero a = a.
Proof. destruct a as [[? ?] ?]; unfold vadd, vzero; cbn; f_equal; [f_equal|]; ring. Qed.
Lemma vadd_0_r a : vadd a vzero = a.
Proof. destruct a as [[? ?] ?]; unfold vadd, vzero; cbn; f_equal; [f_equal|]; ring. Qed.
Lemma vadd_sub a b : vsub (vadd a b) a = b.
Proof. destruct a as [[? ?] ?], b as [[? ?] ?]; unfold vadd, vsub; cbn; f_equal; [f_equal|]; ring. Qed.

Lemma vcumsum_nth l : forall acc i, (i < length l)%nat ->
  nth i (vcumsum_from acc l) vzero = vadd acc (vtotal (firstn (S i) l)).
Proof.
  induction l as [|x l IH]; intros acc i Hi; cbn in Hi; [lia|].
  destruct i as [|i]; cbn [vcumsum_from nth].
  - cbn. rewrite vadd_0_r; reflexivity.
  - rewrite IH by lia. cbn [firstn vtotal]. apply vadd_assoc.
Qed.
Lemma vcumsum_length l : forall acc, length (vcumsum_from acc l) = length l.
Proof. induction l; intros; cbn; auto. Qed.

Definition displacements (step : list R) (dirs : list vec) : list vec :=
  map2 (fun s k => vscale s k) step dirs.

Lemma move_nth p0 rest dirs step i :
  length dirs = length step -> (i <= length step)%nat ->
  nth i (move (p0 :: rest) dirs step) vzero
  = vadd p0 (vtotal (firstn i (displacements step dirs))).
Proof.
  intros Hl Hi. unfold move.
  rewrite vcumsum_nth by (cbn [length]; rewrite map2_length; lia).
  rewrite vadd_0_l. cbn [firstn vtotal]. reflexivity.
Qed.
Lemma move_length p0 rest dirs step :
  length dirs = length step -> length (move (p0 :: rest) dirs step) = S (length step).
Proof. intros H. unfold move. rewrite vcumsum_length; cbn [length]; rewrite map2_length; lia. Qed.

Lemma vtotal_firstn_S l i : (i < length l)%nat ->
  vtotal (firstn (S i) l) = vadd (vtotal (firstn i l)) (nth i l vzero).
Proof.
  revert i; induction l as [|v l IH]; intros i Hi; cbn in Hi; [lia|].
  destruct i as [|i]; [cbn; rewrite vadd_0_l, vadd_0_r; reflexivity|].
  rewrite !firstn_cons. cbn [vtotal nth]. rewrite IH by lia. rewrite <- vadd_assoc. reflexivity.
Qed.

Lemma move_step p0 rest dirs step i :
  length dirs = length step -> (i < length step)%nat ->
  vsub (nth (S i) (move (p0 :: rest) dirs step) vzero)
       (nth i (move (p0 :: rest) dirs step) vzero)
  = vscale (nth i step 0) (nth i dirs vzero).
Proof.
  intros Hl Hi. rewrite !move_nth by lia.
  assert (Hd : length (displacements step dirs) = length step)
    by (unfold displacements; rewrite map2_length; lia).
  rewrite vtotal_firstn_S by lia. rewrite <- vadd_assoc, vadd_sub.
  unfold displacements. rewrite (map2_nth _ _ _ i 0 vzero vzero) by lia. reflexivity.
Qed.

Lemma vlen_scale s k : 0 <= s -> vlen (vscale s k) = s * vlen k.
Proof.
  intros Hs. unfold vlen. replace (dot (vscale s k) (vscale s k)) with (s * s * dot k k).
  - rewrite sqrt_mult_alt by nra. rewrite sqrt_square by exact Hs. reflexivity.
  - destruct k as [[x y] z]; unfold dot, vscale; cbn; ring.
Qed.
Lemma vlen_unit k : unit k -> vlen k = 1.
Proof. unfold unit, vlen; intros ->; apply sqrt_1. Qed.

Lemma cauchy_schwarz a b : dot a b <= vlen a * vlen b.
Proof.
  unfold vlen. rewrite <- sqrt_mult_alt by apply dot_self_nonneg.
  apply Rsqr_incr_0_var; [|apply sqrt_pos].
  rewrite Rsqr_sqrt by (apply Rmult_le_pos; apply dot_self_nonneg).
  destruct a as [[x y] z], b as [[u v] w]; unfold Rsqr, dot; cbn.
  assert (0 <= (x * v - y * u) ^ 2 + (y * w - z * v) ^ 2 + (z * u - x * w) ^ 2)
    by (pose proof (sq_nonneg_pow (x * v - y * u)); pose proof (sq_nonneg_pow (y * w - z * v));
        pose proof (sq_nonneg_pow (z * u - x * w)); lra).
  lra.
Qed.
Lemma triangle a b : vlen (vadd a b) <= vlen a + vlen b.
Proof.
  assert (Ha : 0 <= vlen a) by apply sqrt_pos. assert (Hb : 0 <= vlen b) by apply sqrt_pos.
  unfold vlen at 1. apply Rsqr_incr_0_var; [|lra].
  rewrite Rsqr_sqrt by apply dot_self_nonneg.
  replace (dot (vadd a b) (vadd a b)) with (dot a a + 2 * dot a b + dot b b)
    by (destruct a as [[x y] z], b as [[u v] w]; unfold dot, vadd; cbn; ring).
  pose proof (cauchy_schwarz a b).
  assert (vlen a * vlen a = dot a a) by (apply sqrt_sqrt, dot_self_nonneg).
  assert (vlen b * vlen b = dot b b) by (apply sqrt_sqrt, dot_self_nonneg).
  unfold Rsqr. nra.
Qed.

Lemma vtotal_displacement_len step : forall dirs i,
  Forall unit dirs -> Forall (fun s => 0 <= s) step ->
  vlen (vtotal (firstn i (displacements step dirs))) <= total (firstn i step).
Proof.
  induction step as [|s step IH]; intros dirs i Hd Hs.
  - cbn. destruct i; cbn; right; apply vlen_zero; reflexivity.
  - inversion Hs; subst.
    destruct dirs as [|k dirs].
    + destruct i; cbn [displacements map2 firstn vtotal].
      * right; apply vlen_zero; reflexivity.
      * replace (vlen vzero) with 0 by (symmetry; apply vlen_zero; reflexivity).
        apply (total_firstn_nonneg (s :: step) (S i)). constructor; auto.
    + inversion Hd; subst. destruct i; cbn [displacements map2 firstn vtotal total].
      * right; apply vlen_zero; reflexivity.
      * eapply Rle_trans; [apply triangle|].
        rewrite vlen_scale, vlen_unit by auto.
        specialize (IH dirs i). unfold displacements in IH.
        assert (vlen (vtotal (firstn i (map2 (fun s k => vscale s k) step dirs))) <= total (firstn i step)) by (apply IH; auto).
        lra.
Qed.

Lemma move_distance p0 rest dirs step i :
  length dirs = length step -> (i <= length step)%nat ->
  Forall unit dirs -> Forall (fun s => 0 <= s) step ->
  vlen (vsub (nth i (move (p0 :: rest) dirs step) vzero) p0) <= total (firstn i step).
Proof.
  intros Hl Hi Hd Hs. rewrite move_nth by lia. rewrite vadd_sub.
  apply vtotal_displacement_len; auto.
Qed.

(* ------------------------------------------------------------------ *)
(** * Step lengths *)

Lemma step_inverse_cdf mu u l :
  0 < mu -> 0 <= u < 1 ->
  (l <= step_of mu u <-> 1 - exp (- (mu * l)) <= u).
Proof.
  intros Hmu Hu. unfold step_of.
  assert (E : l <= - ln (1 - u) / mu <-> ln (1 - u) <= - (mu * l)).
  { split; intros H.
    - apply Rmult_le_compat_l with (r := mu) in H; [|lra].
      replace (mu * (- ln (1 - u) / mu)) with (- ln (1 - u)) in H by (field; lra). lra.
    - apply Rmult_le_reg_l with mu; [lra|].
      replace (mu * (- ln (1 - u) / mu)) with (- ln (1 - u)) by (field; lra). lra. }
  rewrite E. split; intros H.
  - assert (1 - u <= exp (- (mu * l))).
    { rewrite <- (exp_ln (1 - u)) by lra.
      destruct H as [H|H]; [left; apply exp_increasing; exact H|rewrite H; lra]. }
    lra.
  - rewrite <- (ln_exp (- (mu * l))). assert (1 - u <= exp (- (mu * l))) by lra.
    destruct H0 as [H0|H0]; [left; apply ln_increasing; lra|rewrite H0; lra].
Qed.

Lemma step_nonneg mu u : 0 < mu -> 0 <= u < 1 -> 0 <= step_of mu u.
Proof.
  intros Hmu Hu. apply step_inverse_cdf; auto.
  rewrite Rmult_0_r, Ropp_0, exp_0. lra.
Qed.

Lemma round_half_even_bound (n : nat) f :
  0 <= f <= 1 -> (0 <= round_half_even (INR n * f) <= Z.of_nat n)%Z.
Proof.
  intros Hf. pose proof (pos_INR n) as Hn.
  set (x := INR n * f). assert (Hx : 0 <= x <= INR n) by (unfold x; split; nra).
  unfold round_half_even. pose proof (Int_part_spec x) as Hi. unfold floorZ.
  set (k := Int_part x) in *.
  assert (Hk0 : (0 <= k)%Z).
  { assert ((-1 < k)%Z); [|lia]. apply lt_IZR. lra. }
  assert (Hkn : (k <= Z.of_nat n)%Z).
  { apply le_IZR. rewrite <- INR_IZR_INZ. lra. }
  assert (Hup : 0 < x - IZR k -> (k + 1 <= Z.of_nat n)%Z).
  { intros Hd. assert ((k < Z.of_nat n)%Z); [|lia]. apply lt_IZR. rewrite <- INR_IZR_INZ. lra. }
  destruct (Rltb (x - IZR k) (1 / 2)) eqn:E1; [lia|]. apply Rltb_false in E1.
  destruct (Rltb (1 / 2) (x - IZR k)) eqn:E2.
  - split; [lia|]. apply Hup; lra.
  - destruct (Z.even k); [lia|]. split; [lia|]. apply Hup; lra.
Qed.

(** |round(x) - x| <= 1/2. *)
Lemma round_half_even_near x : Rabs (IZR (round_half_even x) - x) <= 1 / 2.
Proof.
  unfold round_half_even, floorZ. pose proof (Int_part_spec x) as Hi.
  destruct (Rltb (x - IZR (Int_part x)) (1 / 2)) eqn:E1;
    [apply Rltb_true in E1; unfold Rabs; destruct (Rcase_abs _); lra|].
  apply Rltb_false in E1.
  destruct (Rltb (1 / 2) (x - IZR (Int_part x))) eqn:E2.
  - apply Rltb_true in E2. rewrite plus_IZR. unfold Rabs; destruct (Rcase_abs _); lra.
  - apply Rltb_false in E2. destruct (Z.even (Int_part x)); rewrite ?plus_IZR; unfold Rabs; destruct (Rcase_abs _); lra.
Qed.

Lemma sample_step_error ntraj mu mm fr rand rm :
  (fr < 0 \/ 1 < fr) -> sample_step ntraj mu mm fr rand rm = Err ValueError.
Proof.
  intros H. unfold sample_step.
  replace (Rltb 1 fr || Rltb fr 0) with true; [reflexivity|].
  symmetry. apply orb_true_iff. destruct H; [right|left]; apply Rltb_true; lra.
Qed.

Lemma sample_step_single ntraj mu fr rand rm :
  0 <= fr <= 1 -> sample_step ntraj mu None fr rand rm = Ok (map (map (step_of mu)) rand).
Proof.
  intros H. unfold sample_step.
  replace (Rltb 1 fr || Rltb fr 0) with false; [reflexivity|].
  symmetry. apply orb_false_iff. split; apply Rltb_false; lra.
Qed.

Lemma sample_step_mie ntraj mu mm fr row0 rows rm :
  0 <= fr <= 1 -> length row0 = ntraj ->
  exists m step0,
    sample_step ntraj mu (Some mm) fr (row0 :: rows) rm
      = Ok (step0 :: map (map (step_of mu)) rows)
    /\ Rabs (INR m - INR ntraj * fr) <= 1 / 2
    /\ (m <= ntraj)%nat
    /\ length step0 = ntraj
    /\ (forall i, (i < m)%nat -> nth i step0 0 = step_of mm (rm i))
    /\ (forall i, (m <= i < ntraj)%nat -> nth i step0 0 = step_of mu (nth i row0 0)).
Proof.
  intros Hfr Hl. unfold sample_step.
  replace (Rltb 1 fr || Rltb fr 0) with false
    by (symmetry; apply orb_false_iff; split; apply Rltb_false; lra).
  cbn [map]. pose proof (round_half_even_bound ntraj fr Hfr) as Hb.
  pose proof (round_half_even_near (INR ntraj * fr)) as Hnear.
  set (z := round_half_even (INR ntraj * fr)) in *.
  exists (Z.to_nat z). eexists. split; [reflexivity|].
  split.
  { rewrite INR_IZR_INZ, Z2Nat.id by lia. exact Hnear. }
  split; [lia|].
  unfold overwrite_first.
  set (new := map (fun i => step_of mm (rm i)) (seq 0 (Z.to_nat z))).
  assert (Hnew : length new = Z.to_nat z) by (unfold new; rewrite map_length, seq_length; reflexivity).
  split; [rewrite app_length, skipn_length, map_length; lia|].
  split.
  - intros i Hi. rewrite app_nth1 by lia. unfold new.
    rewrite (nth_map_in _ _ _ 0%nat) by (rewrite seq_length; lia). rewrite seq_nth by lia. reflexivity.
  - intros i Hi. rewrite app_nth2 by lia.
    replace (nth (i - length new) (skipn (length new) (map (step_of mu) row0)) 0)
      with (nth i (map (step_of mu) row0) 0).
    + apply nth_map_in. lia.
    + rewrite <- (firstn_skipn (length new) (map (step_of mu) row0)) at 1.
      rewrite app_nth2; rewrite firstn_length, map_length; [f_equal; lia|lia].
Qed.

(** Every entry of [sample_step] follows the exponential law. *)
Lemma Forall2_map_r {A B} (P : A -> B -> Prop) (f : A -> B) l :
  (forall a, In a l -> P a (f a)) -> Forall2 P l (map f l).
Proof. induction l as [|a l IH]; cbn; intros H; constructor; auto. Qed.

Lemma sample_step_law ntraj mu fr rand rm :
  0 <= fr <= 1 -> 0 < mu -> Forall (Forall (fun u => 0 <= u < 1)) rand ->
  exists steps, sample_step ntraj mu None fr rand rm = Ok steps
    /\ Forall2 (Forall2 (fun u s => 0 <= s /\
          forall l, l <= s <-> 1 - exp (- (mu * l)) <= u)) rand steps.
Proof.
  intros Hf Hm Hr. exists (map (map (step_of mu)) rand).
  split; [now apply sample_step_single|].
  apply Forall2_map_r. intros row Hrow. apply Forall2_map_r. intros u Hu.
  rewrite Forall_forall in Hr. specialize (Hr row Hrow). rewrite Forall_forall in Hr.
  specialize (Hr u Hu). split; [now apply step_nonneg|].
  intros l; now apply step_inverse_cdf.
Qed.
