(** The polydisperse average and the unit of length. *)
From Verif Require Import Num Spec Spec_scatter L_num L_trapezoid M_model M_structure M_reflection Spec_reflection
  L_montecarlo2 L_slots L_reflection L_sizes.
From Coq Require Import Lia Lra.
Open Scope R_scope.

(** The unnormalised weight the code uses. *)
Definition raw (factorial : R -> R) (mean t d : R) : R :=
  if Rleb t 100 then schulz factorial mean t d else narrow mean t d.

Lemma map2_maps2 {A} (u v : A -> R) g : map2 Rmult (map u g) (map v g) = map (fun d => u d * v d) g.
Proof. induction g as [|a g IH]; cbn; [reflexivity|now rewrite IH]. Qed.

Lemma size_dist_raw factorial g mean t : (100 < t -> ~ In 0 g) ->
  trap_int (raw factorial mean t) g <> 0 ->
  size_distribution factorial g mean t
  = map Some (map (fun d => raw factorial mean t d / trap_int (raw factorial mean t) g) g).
Proof.
  intros H0 Hn. unfold size_distribution. unfold raw in *. destruct (Rleb t 100) eqn:E.
  - rewrite trapezoid_map, !map_map. apply map_ext. intros d. unfold ndiv.
    now rewrite (proj2 (Reqb_false _ 0)) by exact Hn.
  - apply Rleb_false in E.
    replace (existsb (fun d => Reqb d 0) g) with false.
    + rewrite trapezoid_map, !map_map. apply map_ext. intros d. unfold ndiv.
      now rewrite (proj2 (Reqb_false _ 0)) by exact Hn.
    + symmetry. apply not_true_is_false. intros F. apply existsb_exists in F as (x & Hx & Ex).
      apply Reqb_true in Ex. subst x. now apply (H0 E).
Qed.

Lemma poly_ratio factorial f mean t : let g := diameter_grid mean t in
  (100 < t -> ~ In 0 g) -> trap_int (raw factorial mean t) g <> 0 ->
  poly_integral factorial f mean t
  = Some (trap_int (fun d => f d * raw factorial mean t d) g / trap_int (raw factorial mean t) g).
Proof.
  intros g H0 Hn. unfold poly_integral. fold g. rewrite size_dist_raw by assumption.
  rewrite get_all_some. f_equal. rewrite map2_maps2, trapezoid_map.
  rewrite (trap_int_ext _ (fun d => / trap_int (raw factorial mean t) g * (f d * raw factorial mean t d)))
    by (intros; unfold Rdiv; ring).
  rewrite trap_int_scale. unfold Rdiv. ring.
Qed.

Lemma trap_int_dilate f lam g : trap_int f (map (Rmult lam) g) = lam * trap_int (fun d => f (lam * d)) g.
Proof.
  induction g as [|a [|b g] IH]; [cbn; ring|cbn; ring|].
  change (trap_int f (map (Rmult lam) (a :: b :: g)))
    with ((lam * b - lam * a) * ((f (lam * a) + f (lam * b)) / 2) + trap_int f (map (Rmult lam) (b :: g))).
  rewrite IH.
  change (trap_int (fun d => f (lam * d)) (a :: b :: g))
    with ((b - a) * ((f (lam * a) + f (lam * b)) / 2) + trap_int (fun d => f (lam * d)) (b :: g)).
  field.
Qed.

Lemma npow_mult lam d t : 0 < lam -> 0 <= d -> npow (lam * d) t = Rpower lam t * npow d t.
Proof.
  intros Hl Hd. unfold npow. destruct (Req_dec d 0) as [->|N].
  - rewrite Rmult_0_r, (proj2 (Reqb_true 0 0)) by reflexivity.
    destruct (Reqb t 0) eqn:E; [|ring]. apply Reqb_true in E. subst t. rewrite Rpower_O by exact Hl. ring.
  - rewrite !(proj2 (Reqb_false _ 0)) by nra. now rewrite Rpower_mult_distr by lra.
Qed.

Lemma raw_scale factorial lam mean t : 0 < lam -> 0 < mean -> -1 < t -> 0 < factorial t ->
  exists k, 0 < k /\ forall d, 0 <= d -> (100 < t -> 0 < d) ->
    raw factorial (lam * mean) t (lam * d) = k * raw factorial mean t d.
Proof.
  intros Hl Hm Ht Hf. unfold raw. destruct (Rleb t 100) eqn:E.
  - exists (Rpower (/ lam) (t + 1) * Rpower lam t). split; [apply Rmult_lt_0_compat; apply exp_pos|].
    intros d Hd _. unfold schulz. rewrite npow_mult by assumption.
    replace ((t + 1) / (lam * mean)) with (/ lam * ((t + 1) / mean)) by (field; lra).
    rewrite <- Rpower_mult_distr.
    + replace (- (lam * d) / (lam * mean) * (t + 1)) with (- d / mean * (t + 1)) by (field; lra). unfold Rdiv. ring.
    + now apply Rinv_0_lt_compat.
    + apply Rmult_lt_0_compat; [lra|now apply Rinv_0_lt_compat].
  - apply Rleb_false in E. exists (/ lam). split; [now apply Rinv_0_lt_compat|].
    intros d _ Hd. specialize (Hd E). unfold narrow. pose proof PI_RGT_0.
    assert (S0 : 0 < sqrt (t + 1)) by (apply sqrt_lt_R0; lra).
    set (s := sqrt (t + 1)) in *.
    assert (Sq : forall x, 0 < x -> sqrt (2 * PI * x ^ 2) = sqrt (2 * PI) * x).
    { intros x Hx. rewrite sqrt_mult by (try lra; apply pow2_ge_0). now rewrite sqrt_pow2 by lra. }
    rewrite !Sq by (apply Rmult_lt_0_compat; [nra|now apply Rinv_0_lt_compat]).
    assert (0 < sqrt (2 * PI)) by (apply sqrt_lt_R0; lra).
    replace (- (lam * d - lam * mean) ^ 2 / (2 * (lam * d / s) ^ 2))
      with (- (d - mean) ^ 2 / (2 * (d / s) ^ 2)) by (field; repeat split; lra).
    field. repeat split; lra.
Qed.

Lemma grid_scale lam mean p : 0 < lam -> 0 < mean -> width p <= 1 / 3 ->
  diameter_grid (lam * mean) (pdi_t p) = map (Rmult lam) (diameter_grid mean (pdi_t p)).
Proof.
  intros Hl Hm Hw. destruct (pdi_t_value p ltac:(lra)) as (_ & _ & Es).
  assert (W : 0 < width p) by (unfold width; pose proof (Rmax_r p 1e-5); lra).
  unfold diameter_grid. rewrite Es.
  replace (3 * (lam * mean) / / width p) with (lam * (3 * width p * mean)) by (field; lra).
  replace (3 * mean / / width p) with (3 * width p * mean) by (field; lra).
  assert (0 <= mean - 3 * width p * mean) by nra.
  assert (0 <= lam * mean - lam * (3 * width p * mean)) by nra.
  rewrite !(proj2 (Rltb_false _ 0)) by assumption.
  unfold linspace. rewrite map_map. apply map_ext. intros i.
  cbn [Nat.sub]. field. apply not_0_INR. discriminate.
Qed.

Lemma raw_nonneg factorial mean t d : 0 <= d -> (100 < t -> 0 < d) -> -1 < t -> 0 < factorial t ->
  0 <= raw factorial mean t d.
Proof.
  intros H0 H1 Ht Hf. unfold raw. destruct (Rleb t 100) eqn:E.
  - unfold schulz. apply Rmult_le_pos; [|left; apply exp_pos].
    apply Rmult_le_pos; [|left; now apply Rinv_0_lt_compat].
    apply Rmult_le_pos; [left; apply exp_pos|now apply npow_nonneg].
  - apply Rleb_false in E. left. apply narrow_pos; [now apply H1|lra].
Qed.
Lemma raw_pos factorial mean t d : 0 < d -> -1 < t -> 0 < factorial t -> 0 < raw factorial mean t d.
Proof.
  intros H0 Ht Hf. unfold raw. destruct (Rleb t 100).
  - unfold schulz. apply Rmult_lt_0_compat; [|apply exp_pos].
    apply Rmult_lt_0_compat; [|now apply Rinv_0_lt_compat].
    apply Rmult_lt_0_compat; [apply exp_pos|]. now apply npow_pos.
  - now apply narrow_pos.
Qed.

Lemma unit_free factorial f lam mean p : 0 < lam -> 0 < mean -> width p <= 1 / 3 -> 0 < factorial (pdi_t p) ->
  poly_integral factorial (fun d => f (d / lam)) (lam * mean) (pdi_t p)
  = poly_integral factorial f mean (pdi_t p).
Proof.
  intros Hl Hm Hw Hf.
  destruct (pdi_t_value p ltac:(lra)) as (Et & T0 & _).
  assert (W : 0 < width p) by (unfold width; pose proof (Rmax_r p 1e-5); lra).
  destruct (grid_ok mean p Hm ltac:(lra) (or_introl Hw)) as (G1 & G2 & G3 & G4 & G5).
  set (t := pdi_t p) in *. set (g := diameter_grid mean t) in *.
  assert (W3 : 100 < t -> width p < 1 / 3).
  { intros L. rewrite Et in L. destruct (Rlt_dec (width p) (1 / 3)) as [|N]; [assumption|]. exfalso.
    replace (width p) with (1 / 3) in L by lra.
    replace (/ (1 / 3) ^ 2) with 9 in L by field. lra. }
  assert (P : forall d, In d g -> 0 <= d /\ (100 < t -> 0 < d)).
  { intros d Hd. split; [apply (G4 d Hd)|]. intros L. now apply G5; [apply W3|]. }
  assert (Hd0 : 0 <= hd 0 g).
  { clear - P. clearbody g. destruct g as [|a g']; [cbn; lra|]. apply (P a). now left. }
  assert (Pn : 0 < trap_int (raw factorial mean t) g).
  { rewrite <- trapezoid_map. apply trapezoid_pos; [exact G1| | |exact G2].
    - intros d Hd. destruct (P d Hd). apply raw_nonneg; try assumption. lra.
    - intros d Hd Hgt. apply raw_pos; try assumption; lra. }
  destruct (raw_scale factorial lam mean t Hl Hm ltac:(lra) Hf) as (k & Hk & Ek).
  assert (Eg : diameter_grid (lam * mean) t = map (Rmult lam) g) by now apply grid_scale.
  assert (En : trap_int (raw factorial (lam * mean) t) (map (Rmult lam) g)
               = lam * k * trap_int (raw factorial mean t) g).
  { rewrite trap_int_dilate.
    rewrite (trap_int_ext _ (fun d => k * raw factorial mean t d))
      by (intros d Hd; destruct (P d Hd); now apply Ek).
    rewrite trap_int_scale. ring. }
  assert (Z : 100 < t -> ~ In 0 g) by (intros L H; destruct (P 0 H) as [_ Q]; specialize (Q L); lra).
  assert (Z' : 100 < t -> ~ In 0 (map (Rmult lam) g)).
  { intros L H. apply in_map_iff in H as (d & Ed & Hd). destruct (P d Hd) as [_ Q]. specialize (Q L). nra. }
  assert (Pos : 0 < lam * k * trap_int (raw factorial mean t) g)
    by (apply Rmult_lt_0_compat; [nra|exact Pn]).
  rewrite (poly_ratio factorial f mean t) by (fold g; try assumption; lra).
  rewrite poly_ratio; rewrite Eg; [|exact Z'|rewrite En; lra].
  fold g. f_equal. rewrite En, trap_int_dilate.
  rewrite (trap_int_ext _ (fun d => k * (f d * raw factorial mean t d))).
  2:{ intros d Hd. destruct (P d Hd). rewrite Ek by assumption.
      replace (lam * d / lam) with d by (field; lra). ring. }
  rewrite trap_int_scale. field. repeat split; lra.
Qed.

(** ** Broad distributions *)

Lemma trap_int_opp f g : trap_int f g = - trap_int (fun d => f (- d)) (map Ropp g).
Proof.
  induction g as [|a [|b g] IH]; [cbn; ring|cbn; ring|].
  change (trap_int f (a :: b :: g)) with ((b - a) * ((f a + f b) / 2) + trap_int f (b :: g)).
  rewrite IH.
  change (trap_int (fun d => f (- d)) (map Ropp (a :: b :: g)))
    with ((- b - - a) * ((f (- - a) + f (- - b)) / 2) + trap_int (fun d => f (- d)) (map Ropp (b :: g))).
  rewrite !Ropp_involutive. lra.
Qed.

Lemma linspace_opp a b n : map Ropp (linspace a b n) = linspace (- a) (- b) n.
Proof.
  unfold linspace. rewrite map_map. apply map_ext. intros i. unfold Rdiv. ring.
Qed.

Lemma trap_desc_neg f a b n : b < a -> (2 <= n)%nat -> (forall d, b <= d <= a -> 0 <= f d) -> 0 < f a ->
  trap_int f (linspace a b n) < 0.
Proof.
  intros Hab Hn Hf Ha. rewrite trap_int_opp, linspace_opp.
  assert (As : ascending (linspace (- a) (- b) n)) by (apply linspace_ascending; lra).
  assert (In' : forall d, In d (linspace (- a) (- b) n) -> - a <= d <= - b) by (intros d H; apply linspace_in in H; lra).
  assert (0 < trap_int (fun d => f (- d)) (linspace (- a) (- b) n)); [|lra].
  assert (Eh : exists x y g, linspace (- a) (- b) n = x :: y :: g /\ x = - a /\ - a < y).
  { destruct n as [|[|n]]; [lia|lia|].
    eexists _, _, _. split; [unfold linspace; cbn [seq map]; reflexivity|]. split; [cbn; ring|].
    change (INR 1) with 1. rewrite Rmult_1_l.
    assert (0 < (- b - - a) / INR (S (S n) - 1)); [|lra].
    apply Rmult_lt_0_compat; [lra|]. apply Rinv_0_lt_compat, lt_0_INR. lia. }
  destruct Eh as (x & y & g & E & Ex & Ey). rewrite E in *. subst x.
  change (trap_int (fun d => f (- d)) (- a :: y :: g))
    with ((y - - a) * ((f (- - a) + f (- y)) / 2) + trap_int (fun d => f (- d)) (y :: g)).
  rewrite Ropp_involutive.
  assert (0 <= trap_int (fun d => f (- d)) (y :: g)).
  { apply trap_int_nonneg; [exact (ascending_tail _ _ As)|].
    intros d Hd. pose proof (In' d (or_intror Hd)). apply Hf. lra. }
  pose proof (In' y (or_intror (or_introl eq_refl))).
  assert (0 <= f (- y)) by (apply Hf; lra).
  assert (0 < (y - - a) * ((f a + f (- y)) / 2)) by (apply Rmult_lt_0_compat; lra). lra.
Qed.

Lemma pdi_half : pdi_t (1 / 2) = 3 /\ sqrt (3 + 1) = 2.
Proof.
  split.
  - unfold pdi_t, pdi_floor. rewrite (proj2 (Rltb_false (1 / 2) 1e-5)) by lra.
    replace (1 / (1 / 2) ^ 2) with 4 by field. rewrite Rabs_pos_eq by lra. ring.
  - replace (3 + 1) with (2 ^ 2) by ring. apply sqrt_pow2. lra.
Qed.

(** 100 nm spheres with polydispersity 1/2: diameters in micrometres stay below
    0.25; in metres the grid runs from 1e-6 (one micrometre) down to 2.5e-7. *)
Lemma unit_dependent : let factorial := fun _ => 6 in let f := fun d => if Rleb d 0.25 then 0 else 1 in
  poly_integral factorial f 0.1 (pdi_t (1 / 2)) = Some 0
  /\ exists v, poly_integral factorial (fun d => f (d / 1e-6)) (1e-6 * 0.1) (pdi_t (1 / 2)) = Some v /\ 0 < v.
Proof.
  intros factorial f. destruct pdi_half as [-> S].
  assert (Rp : forall m d, 0 < d -> 0 < raw factorial m 3 d) by (intros; apply raw_pos; unfold factorial; lra).
  assert (G1 : diameter_grid 0.1 3 = linspace 1e-6 0.25 50).
  { unfold diameter_grid. rewrite S. rewrite (proj2 (Rltb_true _ 0)) by lra. f_equal. lra. }
  assert (G2 : diameter_grid (1e-6 * 0.1) 3 = linspace 1e-6 (1e-6 * 0.25) 50).
  { unfold diameter_grid. rewrite S. rewrite (proj2 (Rltb_true _ 0)) by lra. f_equal. lra. }
  split.
  - assert (P : 0 < trap_int (raw factorial 0.1 3) (linspace 1e-6 0.25 50)).
    { assert (W : width (1 / 2) = 1 / 2) by (unfold width; rewrite Rmax_left; lra).
      pose proof (grid_ok 0.1 (1 / 2)) as T. cbv zeta in T. rewrite (proj1 pdi_half), W, G1 in T.
      destruct T as (T1 & T2 & _); [lra|lra|lra|].
      rewrite <- trapezoid_map. apply trapezoid_pos; [exact T1| | |exact T2].
      - intros d Hd. apply linspace_in in Hd; [|lra]. left. apply Rp. lra.
      - intros d Hd _. apply linspace_in in Hd; [|lra]. apply Rp. lra. }
    rewrite poly_ratio; rewrite G1; [|lra|lra]. f_equal.
    rewrite (trap_int_ext _ (fun _ => 0)); [rewrite trap_int_zero; unfold Rdiv; ring|].
    intros d Hd. apply linspace_in in Hd; [|lra]. unfold f.
    rewrite (proj2 (Rleb_true d 0.25)) by lra. ring.
  - assert (N : trap_int (raw factorial (1e-6 * 0.1) 3) (linspace 1e-6 (1e-6 * 0.25) 50) < 0).
    { apply trap_desc_neg; [lra|lia| |].
      - intros d Hd. left. apply Rp. lra.
      - apply Rp. lra. }
    assert (N2 : trap_int (fun d => f (d / 1e-6) * raw factorial (1e-6 * 0.1) 3 d)
                   (linspace 1e-6 (1e-6 * 0.25) 50) < 0).
    { apply trap_desc_neg; [lra|lia| |].
      - intros d Hd. apply Rmult_le_pos; [unfold f; destruct (Rleb _ _); lra|]. left. apply Rp. lra.
      - apply Rmult_lt_0_compat; [|apply Rp; lra]. unfold f.
        rewrite (proj2 (Rleb_false (1e-6 / 1e-6) 0.25)); [lra|].
        replace (1e-6 / 1e-6) with 1 by (field; lra). lra. }
    eexists. split; [rewrite poly_ratio; rewrite G2; [reflexivity|lra|lra]|].
    match goal with |- 0 < ?a / ?b => replace (a / b) with ((- a) * / (- b)) by (field; lra) end.
    apply Rmult_lt_0_compat; [lra|]. apply Rinv_0_lt_compat. lra.
Qed.
