(** Size distributions and polydisperse averages. *)
From Verif Require Import Num Spec Spec_scatter L_num L_trapezoid M_model M_structure M_reflection Spec_reflection
  L_montecarlo2 L_slots L_reflection.
From Coq Require Import Lia Lra.
Open Scope R_scope.

Lemma trapezoid_pos f g : ascending g -> (forall d, In d g -> 0 <= f d) ->
  (forall d, In d g -> hd 0 g < d -> 0 < f d) -> hd 0 g < last g 0 -> 0 < trapezoid (map f g) g.
Proof.
  rewrite trapezoid_map. induction g as [|a [|b g] IH]; intros Ha H0 Hp Hl; [cbn in Hl; lra|cbn in Hl; lra|].
  change (trap_int f (a :: b :: g)) with ((b - a) * ((f a + f b) / 2) + trap_int f (b :: g)).
  pose proof (ascending_head _ _ _ Ha) as Hab. pose proof (ascending_tail _ _ Ha) as Ha'.
  assert (T0 : 0 <= trap_int f (b :: g)) by (apply trap_int_nonneg; [exact Ha'|intros d Hd; apply H0; now right]).
  pose proof (H0 a (or_introl eq_refl)) as Fa. pose proof (H0 b (or_intror (or_introl eq_refl))) as Fb.
  cbn [hd] in Hl, Hp. destruct (Rlt_dec a b) as [L|L].
  - pose proof (Hp b (or_intror (or_introl eq_refl)) L) as Pb.
    assert (0 < (b - a) * ((f a + f b) / 2)) by (apply Rmult_lt_0_compat; lra). lra.
  - assert (E : a = b) by lra. subst b.
    assert (0 < trap_int f (a :: g)); [|lra].
    apply IH; [exact Ha'|intros d Hd; apply H0; now right| |exact Hl].
    intros d Hd Hgt. apply Hp; [now right|exact Hgt].
Qed.

Lemma normalised f g : ascending g -> (forall d, In d g -> 0 <= f d) -> 0 < trapezoid (map f g) g ->
  let norm := trapezoid (map f g) g in
  map (fun x => ndiv x norm) (map f g) = map Some (map (fun d => f d / norm) g)
  /\ Forall (fun w => 0 <= w) (map (fun d => f d / norm) g)
  /\ trap_pts (combine g (map (fun d => f d / norm) g)) = 1.
Proof.
  intros Ha Hf Hn norm. fold norm in Hn. split; [|split].
  - rewrite !map_map. apply map_ext. intros d. unfold ndiv. now rewrite (proj2 (Reqb_false norm 0)) by lra.
  - apply Forall_forall. intros w Hw. apply in_map_iff in Hw as [d [<- Hd]].
    apply Rmult_le_pos; [now apply Hf|]. left. now apply Rinv_0_lt_compat.
  - rewrite <- trapezoid_pts by (rewrite map_length; reflexivity).
    rewrite (map_ext _ (fun d => / norm * f d)) by (intros; unfold Rdiv; ring).
    rewrite <- (map_map f (Rmult (/ norm))), trapezoid_scale. fold norm. field. lra.
Qed.

Lemma npow_pos d t : 0 < d -> npow d t = Rpower d t /\ 0 < npow d t.
Proof.
  intros H. unfold npow. rewrite (proj2 (Reqb_false d 0)) by lra. split; [reflexivity|apply exp_pos].
Qed.
Lemma npow_nonneg d t : 0 <= d -> 0 <= npow d t.
Proof.
  intros H. unfold npow. destruct (Reqb d 0); [destruct (Reqb t 0); lra|]. left. apply exp_pos.
Qed.

Lemma schulz_dist factorial g mean t : ascending g -> (forall d, In d g -> 0 <= d) ->
  hd 0 g < last g 0 -> t <= 100 -> 0 < factorial t ->
  exists ws c, size_distribution factorial g mean t = map Some ws /\ length ws = length g
    /\ Forall (fun w => 0 <= w) ws /\ trap_pts (combine g ws) = 1 /\ 0 < c
    /\ forall i, (i < length g)%nat ->
         nth i ws 0 = c * (npow (nth i g 0) t * exp (- nth i g 0 / mean * (t + 1))).
Proof.
  intros Ha Hd Hl Ht Hf.
  set (f := schulz factorial mean t).
  assert (F0 : forall d, 0 <= d -> 0 <= f d).
  { intros d H. unfold f, schulz. apply Rmult_le_pos; [|left; apply exp_pos].
    apply Rmult_le_pos; [|left; now apply Rinv_0_lt_compat].
    apply Rmult_le_pos; [left; apply exp_pos|now apply npow_nonneg]. }
  assert (Hd0 : 0 <= hd 0 g) by (destruct g as [|a g']; [cbn; lra|apply Hd; now left]).
  assert (Pn : 0 < trapezoid (map f g) g).
  { apply trapezoid_pos; [exact Ha|intros d H; apply F0, Hd, H| |exact Hl].
    intros d _ H. unfold f, schulz. apply Rmult_lt_0_compat; [|apply exp_pos].
    apply Rmult_lt_0_compat; [|now apply Rinv_0_lt_compat].
    apply Rmult_lt_0_compat; [apply exp_pos|]. apply npow_pos. lra. }
  destruct (normalised f g Ha (fun d H => F0 d (Hd d H)) Pn) as (E1 & E2 & E3).
  set (norm := trapezoid (map f g) g) in *.
  exists (map (fun d => f d / norm) g), (Rpower ((t + 1) / mean) (t + 1) / factorial t / norm).
  split; [|split; [now rewrite map_length|split; [exact E2|split; [exact E3|split]]]].
  - unfold size_distribution. rewrite (proj2 (Rleb_true t 100)) by lra. exact E1.
  - unfold Rdiv. repeat apply Rmult_lt_0_compat; try apply exp_pos; now apply Rinv_0_lt_compat.
  - intros i Hi. rewrite (nth_map_in _ _ _ 0) by exact Hi. unfold f, schulz. field. lra.
Qed.

Lemma narrow_pos mean t d : 0 < d -> -1 < t -> 0 < narrow mean t d.
Proof.
  intros Hd Ht. unfold narrow. apply Rmult_lt_0_compat; [apply exp_pos|].
  apply Rinv_0_lt_compat, sqrt_lt_R0. pose proof PI_RGT_0.
  apply Rmult_lt_0_compat; [lra|]. apply pow_lt. apply Rmult_lt_0_compat; [exact Hd|].
  apply Rinv_0_lt_compat, sqrt_lt_R0. lra.
Qed.

Lemma narrow_dist factorial g mean t : ascending g -> (forall d, In d g -> 0 < d) ->
  hd 0 g < last g 0 -> 100 < t ->
  exists ws c, size_distribution factorial g mean t = map Some ws /\ length ws = length g
    /\ Forall (fun w => 0 <= w) ws /\ trap_pts (combine g ws) = 1 /\ 0 < c
    /\ forall i, (i < length g)%nat -> nth i ws 0 = c * narrow mean t (nth i g 0).
Proof.
  intros Ha Hd Hl Ht.
  set (f := narrow mean t).
  assert (F0 : forall d, 0 < d -> 0 < f d) by (intros d H; apply narrow_pos; lra).
  assert (Pn : 0 < trapezoid (map f g) g).
  { apply trapezoid_pos; [exact Ha|intros d H; left; apply F0, Hd, H| |exact Hl].
    intros d H _. apply F0, Hd, H. }
  destruct (normalised f g Ha (fun d H => Rlt_le _ _ (F0 d (Hd d H))) Pn) as (E1 & E2 & E3).
  set (norm := trapezoid (map f g) g) in *.
  exists (map (fun d => f d / norm) g), (/ norm).
  split; [|split; [now rewrite map_length|split; [exact E2|split; [exact E3|split]]]].
  - unfold size_distribution. rewrite (proj2 (Rleb_false t 100)) by lra.
    replace (existsb (fun d => Reqb d 0) g) with false; [exact E1|].
    symmetry. clear - Hd. induction g as [|a g IH]; [reflexivity|]. cbn.
    rewrite (proj2 (Reqb_false a 0)) by (apply Rgt_not_eq, Hd; now left). cbn. apply IH.
    intros; apply Hd; now right.
  - now apply Rinv_0_lt_compat.
  - intros i Hi. rewrite (nth_map_in _ _ _ 0) by exact Hi. unfold f, Rdiv. ring.
Qed.

(** A diameter of exactly 0 (the lower end of a grid) makes the Gaussian branch
    NaN. *)
Lemma narrow_zero factorial g mean t : 100 < t -> In 0 g ->
  size_distribution factorial g mean t = map (fun _ => None) g.
Proof.
  intros Ht H0. unfold size_distribution. rewrite (proj2 (Rleb_false t 100)) by lra.
  replace (existsb (fun d => Reqb d 0) g) with true; [reflexivity|]. symmetry.
  apply existsb_exists. exists 0. split; [exact H0|]. now apply Reqb_true.
Qed.

Lemma narrow_skewed : narrow 1 399 (1 / 2) < narrow 1 399 (3 / 2) / 2.
Proof.
  unfold narrow.
  assert (E : sqrt (399 + 1) = 20).
  { replace (399 + 1) with (20 ^ 2) by ring. apply sqrt_pow2. lra. }
  rewrite E. pose proof PI_RGT_0 as HP.
  set (r := sqrt (2 * PI)).
  assert (Hr : 0 < r) by (apply sqrt_lt_R0; lra).
  assert (S : forall x, 0 < x -> sqrt (2 * PI * x ^ 2) = r * x).
  { intros x Hx. rewrite sqrt_mult by (try lra; apply pow2_ge_0). now rewrite sqrt_pow2 by lra. }
  rewrite !S by lra.
  replace (- (1 / 2 - 1) ^ 2 / (2 * (1 / 2 / 20) ^ 2)) with (-200) by field.
  replace (- (3 / 2 - 1) ^ 2 / (2 * (3 / 2 / 20) ^ 2)) with (-200 + 1600 / 9) by field.
  rewrite exp_plus. pose proof (exp_pos (-200)) as Pe.
  assert (B : 100 < exp (1600 / 9)) by (pose proof (exp_ineq1 (1600 / 9) ltac:(lra)); lra).
  apply (Rmult_lt_reg_r r); [exact Hr|].
  replace (exp (-200) / (r * (1 / 2 / 20)) * r) with (40 * exp (-200)) by (field; lra).
  replace (exp (-200) * exp (1600 / 9) / (r * (3 / 2 / 20)) / 2 * r)
    with (20 / 3 * (exp (-200) * exp (1600 / 9))) by (field; lra).
  nra.
Qed.

(** ** Averages over a size distribution *)

Lemma trapezoid_mult_le u w g lo hi : ascending g -> Forall (fun x => 0 <= x) w -> length w = length g ->
  (forall d, In d g -> lo <= u d <= hi) ->
  lo * trapezoid w g <= trapezoid (map2 Rmult (map u g) w) g <= hi * trapezoid w g.
Proof.
  revert w. induction g as [|a [|b g] IH]; intros [|x [|y w]] Ha Hw Hlen Hu; cbn in Hlen; try lia; try (cbn; lra).
  change (trapezoid (x :: y :: w) (a :: b :: g)) with ((b - a) * (x + y) / 2 + trapezoid (y :: w) (b :: g)).
  change (trapezoid (map2 Rmult (map u (a :: b :: g)) (x :: y :: w)) (a :: b :: g))
    with ((b - a) * (u a * x + u b * y) / 2 + trapezoid (map2 Rmult (map u (b :: g)) (y :: w)) (b :: g)).
  pose proof (ascending_head _ _ _ Ha) as Hab.
  inversion_clear Hw. inversion H0; subst.
  specialize (IH (y :: w) (ascending_tail _ _ Ha) H0 ltac:(cbn in *; lia)
                (fun d Hd => Hu d (or_intror Hd))).
  pose proof (Hu a (or_introl eq_refl)) as Ua. pose proof (Hu b (or_intror (or_introl eq_refl))) as Ub.
  assert (P1 : lo * (x + y) <= u a * x + u b * y) by nra.
  assert (P2 : u a * x + u b * y <= hi * (x + y)) by nra.
  assert (Q1 : (b - a) * (lo * (x + y)) <= (b - a) * (u a * x + u b * y)) by (apply Rmult_le_compat_l; lra).
  assert (Q2 : (b - a) * (u a * x + u b * y) <= (b - a) * (hi * (x + y))) by (apply Rmult_le_compat_l; lra).
  lra.
Qed.

Lemma get_all_some l : get_all (map Some l) = Some l.
Proof. rewrite <- (map_id l) at 2. apply (get_all_somes (fun x => x)). Qed.


Lemma pdi_floor_width p : pdi_floor p = width p.
Proof.
  unfold pdi_floor, width. destruct (Rltb p 1e-5) eqn:E.
  - apply Rltb_true in E. rewrite Rmax_right; lra.
  - apply Rltb_false in E. rewrite Rmax_left; lra.
Qed.

Lemma pdi_t_value p : width p <= 1 -> pdi_t p = / width p ^ 2 - 1 /\ 0 <= pdi_t p /\ sqrt (pdi_t p + 1) = / width p.
Proof.
  intros H. unfold pdi_t. rewrite pdi_floor_width.
  assert (W : 0 < width p) by (unfold width; pose proof (Rmax_r p 1e-5); lra).
  assert (W2 : 0 < width p ^ 2) by now apply pow_lt.
  assert (I : 1 <= / width p ^ 2).
  { rewrite <- Rinv_1. apply Rinv_le_contravar; [exact W2|]. nra. }
  replace (1 / width p ^ 2) with (/ width p ^ 2) by (field; lra).
  rewrite Rabs_pos_eq by (apply (Rle_trans _ 1); [lra|exact I]).
  split; [reflexivity|]. split; [apply Rge_le, Rge_minus, Rle_ge; exact I|].
  replace (/ width p ^ 2 - 1 + 1) with ((/ width p) ^ 2) by (field; lra).
  apply sqrt_pow2. left. now apply Rinv_0_lt_compat.
Qed.

Lemma grid_ok mean p : 0 < mean -> width p <= 1 -> (width p <= 1 / 3 \/ 1e-6 < mean) ->
  let g := diameter_grid mean (pdi_t p) in
  ascending g /\ hd 0 g < last g 0 /\ length g = 50%nat
  /\ (forall d, In d g -> 0 <= d /\ Rabs (d - mean) <= 3 * width p * mean)
  /\ (width p < 1 / 3 -> forall d, In d g -> 0 < d).
Proof.
  intros Hm Hw Hu g. destruct (pdi_t_value p Hw) as (_ & _ & Es).
  assert (W : 0 < width p) by (unfold width; pose proof (Rmax_r p 1e-5); lra).
  set (lo := if Rltb (mean - 3 * width p * mean) 0 then 1e-6 else mean - 3 * width p * mean).
  set (hi := mean + 3 * width p * mean).
  assert (Eg : g = linspace lo hi 50).
  { unfold g, diameter_grid. rewrite Es.
    replace (3 * mean / / width p) with (3 * width p * mean) by (field; lra). reflexivity. }
  assert (B : 0 <= lo /\ mean - 3 * width p * mean <= lo /\ lo < hi).
  { pose proof (Rmult_lt_0_compat _ _ W Hm) as WM. unfold lo, hi. destruct (Rltb _ _) eqn:E.
    - apply Rltb_true in E. assert (1 / 3 < width p) by nra. destruct Hu as [|Hu]; [lra|].
      repeat split; lra.
    - apply Rltb_false in E. repeat split; lra. }
  destruct B as (B0 & B1 & B2). rewrite Eg.
  split; [apply linspace_ascending; lra|]. split.
  { unfold linspace. cbn [seq map hd last].
    replace (INR 0 * ((hi - lo) / INR (50 - 1))) with 0 by (cbn; ring).
    match goal with |- _ < ?x => replace x with (lo + INR 49 * ((hi - lo) / INR 49)) by reflexivity end.
    replace (lo + INR 49 * ((hi - lo) / INR 49)) with hi; [lra|].
    field. apply not_0_INR. discriminate. }
  split; [apply linspace_length|]. split.
  - intros d Hd. apply linspace_in in Hd; [|lra]. split; [lra|].
    apply Rabs_le. unfold hi in Hd. lra.
  - intros W3 d Hd. apply linspace_in in Hd; [|lra].
    assert (0 < lo); [|lra]. unfold lo. destruct (Rltb _ _); [lra|nra].
Qed.

Lemma size_dist_ok factorial mean p : 0 < mean -> width p <= 1 -> (width p <= 1 / 3 \/ 1e-6 < mean) ->
  0 < factorial (pdi_t p) ->
  exists ws, size_distribution factorial (diameter_grid mean (pdi_t p)) mean (pdi_t p) = map Some ws
    /\ length ws = 50%nat /\ Forall (fun w => 0 <= w) ws
    /\ trap_pts (combine (diameter_grid mean (pdi_t p)) ws) = 1.
Proof.
  intros Hm Hw Hu Hf. destruct (grid_ok mean p Hm Hw Hu) as (G1 & G2 & G3 & G4 & G5).
  destruct (pdi_t_value p Hw) as (Et & _ & _).
  set (g := diameter_grid mean (pdi_t p)) in *.
  destruct (Rle_dec (pdi_t p) 100) as [L|L].
  - destruct (schulz_dist factorial g mean (pdi_t p) G1 (fun d Hd => proj1 (G4 d Hd)) G2 L Hf)
      as (ws & c & E1 & E2 & E3 & E4 & _). exists ws. rewrite G3 in E2. auto.
  - apply Rnot_le_lt in L.
    assert (W : 0 < width p) by (unfold width; pose proof (Rmax_r p 1e-5); lra).
    assert (W3 : width p < 1 / 3).
    { rewrite Et in L. destruct (Rlt_dec (width p) (1 / 3)) as [|N]; [assumption|]. exfalso.
      apply Rnot_lt_le in N.
      assert (/ width p ^ 2 <= 9); [|lra].
      replace 9 with (/ (1 / 3) ^ 2) by field. apply Rinv_le_contravar; [lra|]. nra. }
    destruct (narrow_dist factorial g mean (pdi_t p) G1 (G5 W3) G2 L)
      as (ws & c & E1 & E2 & E3 & E4 & _). exists ws. rewrite G3 in E2. auto.
Qed.

Lemma poly_integral_avg factorial f mean p lo hi : 0 < mean -> width p <= 1 ->
  (width p <= 1 / 3 \/ 1e-6 < mean) -> 0 < factorial (pdi_t p) ->
  (forall d, 0 <= d -> Rabs (d - mean) <= 3 * width p * mean -> lo <= f d <= hi) ->
  exists v, poly_integral factorial f mean (pdi_t p) = Some v /\ lo <= v <= hi.
Proof.
  intros Hm Hw Hu Hf Hb.
  destruct (grid_ok mean p Hm Hw Hu) as (G1 & G2 & G3 & G4 & G5).
  destruct (size_dist_ok factorial mean p Hm Hw Hu Hf) as (ws & E1 & E2 & E3 & E4).
  unfold poly_integral. rewrite E1, get_all_some. eexists. split; [reflexivity|].
  pose proof (trapezoid_mult_le f ws _ lo hi G1 E3 (eq_trans E2 (eq_sym G3))
                (fun d Hd => Hb d (proj1 (G4 d Hd)) (proj2 (G4 d Hd)))) as B.
  rewrite (trapezoid_pts ws) in B by congruence. rewrite E4 in B. lra.
Qed.

Lemma poly_form_avg factorial f l lo hi : (forall s, In s l -> species_ok factorial s) ->
  (forall s d, In s l -> 0 <= d -> Rabs (d - sp_d s) <= 3 * width (sp_pdi s) * sp_d s -> lo <= f d <= hi) ->
  exists v, poly_form factorial f l = Some v
    /\ lo * fold_right Rplus 0 (map sp_c l) <= v <= hi * fold_right Rplus 0 (map sp_c l).
Proof.
  induction l as [|s l IH]; intros Hs Hb.
  - exists 0. cbn. split; [reflexivity|lra].
  - destruct (Hs s (or_introl eq_refl)) as (C0 & C1 & C2 & C3 & C4).
    destruct (poly_integral_avg factorial f (sp_d s) (sp_pdi s) lo hi C1 C2 C3 C4
                (fun d H0 H => Hb s d (or_introl eq_refl) H0 H)) as (v & Ev & Bv).
    destruct IH as (w & Ew & Bw).
    { intros; apply Hs; now right. }
    { intros s' d Hin H0 H. apply (Hb s' d); [now right|assumption|assumption]. }
    exists (v * sp_c s + w). cbn [poly_form]. rewrite Ev, Ew. cbn [nmap2]. split; [reflexivity|].
    cbn [map fold_right]. nra.
Qed.
