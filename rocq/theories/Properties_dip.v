(** C179: unpolarised light is reflected least at normal incidence. *)
From Coq Require Import Lra Lia Psatz Reals List Bool.
From Verif Require Import Num Spec Spec_detector Spec_direct Spec_meta Spec_oblique Spec_coverslip M_init M_model M_detector M_simulation
  L_num L_fresnel L_oblique L_outcomes L_meta L_meta3 L_meta4 Properties_fresnel Properties_detector Properties_coverslip Properties_meta Properties_surface.
Import ListNotations.
Open Scope R_scope.

(** Fresnel's reflectance at normal incidence. *)
Definition head_on (n1 n2 : R) : R := ((n1 - n2) / (n1 + n2)) ^ 2.

Lemma core a b n1 n2 : 0 < a -> 0 < b -> 0 < n1 -> 0 < n2 -> n1 ^ 2 + n2 ^ 2 <= 4 * (n1 * n2) ->
  a * b * ((n1 * b + n2 * a) ^ 2 + (n1 * a + n2 * b) ^ 2) * (n1 + n2) ^ 2 <= 2 * (n1 * b + n2 * a) ^ 2 * (n1 * a + n2 * b) ^ 2.
Proof.
  intros Ha Hb H1 H2 H. set (K := n2 ^ 4 - 2 * n2 ^ 3 * n1 - 2 * n2 ^ 2 * n1 ^ 2 - 2 * n2 * n1 ^ 3 + n1 ^ 4).
  assert (E : 2 * (n1 * b + n2 * a) ^ 2 * (n1 * a + n2 * b) ^ 2 - a * b * ((n1 * b + n2 * a) ^ 2 + (n1 * a + n2 * b) ^ 2) * (n1 + n2) ^ 2
    = (a - b) ^ 2 * (2 * (n1 * n2) ^ 2 * (a ^ 2 + b ^ 2) - K * (a * b))) by (unfold K; ring).
  assert (P : 0 < n1 * n2) by now apply Rmult_lt_0_compat. assert (Q : 0 < a * b) by now apply Rmult_lt_0_compat.
  assert (B : 0 <= 2 * (n1 * n2) ^ 2 * (a ^ 2 + b ^ 2) - K * (a * b)).
  { assert (S : 2 * (a * b) <= a ^ 2 + b ^ 2) by (pose proof (pow2_ge_0 (a - b)); nra).
    assert (P2 : 0 <= 2 * (n1 * n2) ^ 2) by (pose proof (pow2_ge_0 (n1 * n2)); lra). pose proof (Rmult_le_compat_l _ _ _ P2 S) as T.
    assert (F : 0 <= (4 * (n1 * n2) - (n1 ^ 2 + n2 ^ 2)) * (n1 ^ 2 + n2 ^ 2 + 2 * (n1 * n2))) by (apply Rmult_le_pos; [lra|]; pose proof (pow2_ge_0 n1); pose proof (pow2_ge_0 n2); lra).
    assert (G : (4 * (n1 * n2) - (n1 ^ 2 + n2 ^ 2)) * (n1 ^ 2 + n2 ^ 2 + 2 * (n1 * n2)) = 4 * (n1 * n2) ^ 2 - K) by (unfold K; ring).
    rewrite G in F. pose proof (Rmult_le_pos _ _ F (Rlt_le _ _ Q)) as F'. lra. }
  pose proof (Rmult_le_pos _ _ (pow2_ge_0 (a - b)) B) as R0. lra.
Qed.
Lemma least n1 t1 n2 t2 : 0 < n1 -> 0 < n2 -> 0 <= t1 < PI / 2 -> 0 <= t2 < PI / 2 -> n1 / n2 + n2 / n1 <= 4 ->
  head_on n1 n2 <= surface_R n1 t1 n2 t2.
Proof.
  intros H1 H2 T1 T2 H. assert (Ha : 0 < cos t1) by (apply cos_gt_0; lra). assert (Hb : 0 < cos t2) by (apply cos_gt_0; lra).
  unfold surface_R, textbook_Rp, textbook_Rs, head_on. set (a := cos t1) in *. set (b := cos t2) in *.
  assert (P : 0 < n1 * n2) by now apply Rmult_lt_0_compat.
  assert (H' : n1 ^ 2 + n2 ^ 2 <= 4 * (n1 * n2)).
  { apply (Rmult_le_compat_r (n1 * n2)) in H; [|lra]. replace ((n1 / n2 + n2 / n1) * (n1 * n2)) with (n1 ^ 2 + n2 ^ 2) in H by (field; lra). exact H. }
  pose proof (core a b n1 n2 Ha Hb H1 H2 H') as C.
  assert (X : 0 < n1 * b + n2 * a) by nra. assert (Y : 0 < n1 * a + n2 * b) by nra. assert (Z : 0 < n1 + n2) by lra.
  set (x := n1 * b + n2 * a) in *. set (y := n1 * a + n2 * b) in *. set (z := n1 + n2) in *.
  assert (E1 : ((n1 * b - n2 * a) / x) ^ 2 = 1 - 4 * (n1 * n2) * (a * b) / x ^ 2) by (unfold x in *; field; lra).
  assert (E2 : ((n1 * a - n2 * b) / y) ^ 2 = 1 - 4 * (n1 * n2) * (a * b) / y ^ 2) by (unfold y in *; field; lra).
  assert (E3 : ((n1 - n2) / z) ^ 2 = 1 - 4 * (n1 * n2) / z ^ 2) by (unfold z in *; field; lra).
  rewrite E1, E2, E3.
  assert (X2 : 0 < x ^ 2) by now apply pow_lt. assert (Y2 : 0 < y ^ 2) by now apply pow_lt. assert (Z2 : 0 < z ^ 2) by now apply pow_lt.
  assert (D : a * b * (x ^ 2 + y ^ 2) / (x ^ 2 * y ^ 2) <= 2 / z ^ 2).
  { apply (Rmult_le_reg_r (x ^ 2 * y ^ 2 * z ^ 2)); [apply Rmult_lt_0_compat; [apply Rmult_lt_0_compat; assumption|assumption]|].
    replace (a * b * (x ^ 2 + y ^ 2) / (x ^ 2 * y ^ 2) * (x ^ 2 * y ^ 2 * z ^ 2)) with (a * b * (x ^ 2 + y ^ 2) * z ^ 2) by (field; lra).
    replace (2 / z ^ 2 * (x ^ 2 * y ^ 2 * z ^ 2)) with (2 * x ^ 2 * y ^ 2) by (field; lra). exact C. }
  pose proof (Rmult_le_compat_l (2 * (n1 * n2)) _ _ ltac:(lra) D) as D'.
  replace (2 * (n1 * n2) * (a * b * (x ^ 2 + y ^ 2) / (x ^ 2 * y ^ 2))) with ((4 * (n1 * n2) * (a * b) / x ^ 2 + 4 * (n1 * n2) * (a * b) / y ^ 2) / 2) in D' by (field; lra).
  replace (2 * (n1 * n2) * (2 / z ^ 2)) with (4 * (n1 * n2) / z ^ 2) in D' by (field; lra). lra.
Qed.

(** C179.  If the ratio n of the indices satisfies n + 1/n <= 4 (n between
    2 - sqrt 3 and 2 + sqrt 3), fresnel_reflection's mean over the two
    polarisations is smallest at normal incidence. *)
Theorem C179_least_head_on : forall n1 n2 t p s, 0 < n1 -> 0 < n2 -> n1 / n2 + n2 / n1 <= 4 -> 0 <= t < PI / 2 ->
  fresnel_reflection n1 n2 [t] = Ok ([p], [s]) -> ((n1 - n2) / (n1 + n2)) ^ 2 <= (p + s) / 2.
Proof.
  intros n1 n2 t p s H1 H2 H Ht E.
  destruct (Rlt_le_dec (n1 * sin t) n2) as [L|L].
  - destruct (C04_refracted_angle_exists n1 n2 t H1 H2 Ht L) as (t2 & T2 & S).
    pose proof (C04_fresnel_equations n1 n2 [(t, t2)] H1 H2) as F. cbn [map fst snd] in F. rewrite F in E by (constructor; [auto|constructor]). injection E as <- <-.
    exact (least n1 t n2 t2 H1 H2 Ht T2 H).
  - assert (Hs : 0 <= sin t < 1).
    { pose proof PI_RGT_0. split; [apply sin_ge_0; lra|]. rewrite <- sin_PI2. apply sin_increasing_1; lra. }
    assert (N : n2 < n1) by nra.
    assert (C : asin (n2 / n1) <= t).
    { rewrite <- (asin_sin t) by lra. assert (B : 0 < n2 / n1) by now apply Rdiv_lt_0_compat.
      assert (Q : n2 / n1 <= sin t) by (apply (Rmult_le_reg_r n1); [exact H1|]; unfold Rdiv; rewrite Rmult_assoc, Rinv_l by lra; lra).
      destruct Q as [Q|Q]; [left; apply asin_increasing; lra|rewrite Q; lra]. }
    rewrite (C05_total_internal_reflection n1 n2 t (conj H2 N) ltac:(lra)) in E. injection E as <- <-.
    replace ((1 + 1) / 2) with 1 by lra. unfold Rdiv. rewrite Rpow_mult_distr, pow_inv.
    assert (Z : 0 < (n1 + n2) ^ 2) by (apply pow_lt; lra).
    apply (Rmult_le_reg_r ((n1 + n2) ^ 2)); [exact Z|]. rewrite Rmult_assoc, Rinv_l by lra. nra.
Qed.
Print Assumptions C179_least_head_on.

(** For higher contrast it is not: index 10 against 1, at Brewster's angle. *)
Theorem C179_high_index_dips : exists t p s, 0 <= t < PI / 2 /\ fresnel_reflection 1 10 [t] = Ok ([p], [s]) /\ (p + s) / 2 < ((1 - 10) / (1 + 10)) ^ 2.
Proof.
  pose proof (atan_bound 10) as B. pose proof (atan_increasing 0 10 ltac:(lra)) as I. rewrite atan_0 in I.
  set (t := atan 10) in *. assert (Ct : 0 < cos t) by (apply cos_gt_0; lra).
  assert (Tt : sin t = 10 * cos t) by (pose proof (tan_atan 10) as Q; fold t in Q; unfold tan in Q; apply (f_equal (fun z => z * cos t)) in Q; unfold Rdiv in Q; rewrite Rmult_assoc, Rinv_l in Q by lra; lra).
  pose proof (sin2_cos2 t) as SC. unfold Rsqr in SC. pose proof PI_RGT_0.
  assert (St : 0 < sin t) by lra.
  exists t. set (t2 := PI / 2 - t).
  assert (S : snell 1 t 10 t2) by (unfold snell, t2; rewrite sin_shift; lra).
  pose proof (C04_fresnel_equations 1 10 [(t, t2)] ltac:(lra) ltac:(lra)) as F. cbn [map fst snd] in F.
  do 2 eexists. split; [lra|]. split; [apply F; constructor; [cbn [fst snd]; split; [lra|split; [unfold t2; lra|exact S]]|constructor]|].
  unfold textbook_Rp, textbook_Rs, t2. rewrite cos_shift, Tt.
  replace ((1 * (10 * cos t) - 10 * cos t) / (1 * (10 * cos t) + 10 * cos t)) with 0 by (field; lra).
  replace ((1 * cos t - 10 * (10 * cos t)) / (1 * cos t + 10 * (10 * cos t))) with (- (99 / 101)) by (field; lra). lra.
Qed.
Print Assumptions C179_high_index_dips.

(** Hence a whole calculation: a bare film lit by a beam at any angle reflects at
    least ((n1 - n2) / (n1 + n2))^2. *)
Theorem C179_film : forall fuel angs steps P d trs o th inside,
  valid_params P (length trs) -> trs <> [] -> p_boundary P = film -> p_run P = false -> p_gonio P = None -> p_kz0rot P = None -> p_kz0refl P = None ->
  0 <= p_muabs P -> (forall t, In t trs -> col_ok 1 t) -> beam P th inside trs -> inside <= p_detection P -> p_nfront P = None ->
  p_nmedium P / choose_n_tir P + choose_n_tir P / p_nmedium P <= 4 ->
  calc_refl_trans (S fuel) angs steps P false d trs = Ok (Some o) ->
  ((p_nmedium P - choose_n_tir P) / (p_nmedium P + choose_n_tir P)) ^ 2 <= o_refl o
  /\ o_trans o <= 1 - ((p_nmedium P - choose_n_tir P) / (p_nmedium P + choose_n_tir P)) ^ 2.
Proof.
  intros fuel angs steps P d trs o th inside Hv Hne Hb Hr Hg K1 K2 Hmu HT HB Hd Hf H Ho. pose proof HB as (H1 & H2 & _).
  pose proof (valid_good _ _ Hv) as G. destruct G as (Gm & Gs & Gt & _).
  destruct (C176_bare fuel angs steps P d trs o th inside Hv Hne Hb Hr Hg K1 K2 Hmu HT HB Hd Hf Ho) as (A & _ & B).
  pose proof (least (p_nmedium P) th (choose_n_tir P) inside Gm Gt H1 H2 H) as L. unfold head_on in L. lra.
Qed.
Print Assumptions C179_film.

(** Glass in air at 60 degrees. *)
Example C179_case : forall p s, fresnel_reflection 1 (3 / 2) [PI / 3] = Ok ([p], [s]) -> 4 / 100 <= (p + s) / 2.
Proof.
  intros p s E. pose proof PI_RGT_0. pose proof (C179_least_head_on 1 (3 / 2) (PI / 3) p s ltac:(lra) ltac:(lra) ltac:(lra) ltac:(lra) E). lra.
Qed.
Example C179_film_case : exists o, calc_refl_trans 1 (fun _ _ _ => (0, 0)) (fun _ _ _ => 0) ex_film false 0 [ex_traj] = Ok (Some o) /\ 4 / 100 <= o_refl o.
Proof.
  destruct ex_film_number as (o & Ho & _). exists o. change (map (fun _ : nat => ex_traj) (seq 0 1)) with [ex_traj] in Ho. split; [exact Ho|].
  pose proof PI_RGT_0. destruct ex_traj_ok as (_ & _ & _ & Hc).
  assert (N : choose_n_tir ex_film = 3 / 2) by (unfold choose_n_tir, ex_film; cbn; apply Rabs_pos_eq; lra).
  destruct (C179_film 0 (fun _ _ _ => (0, 0)) (fun _ _ _ => 0) ex_film 0 [ex_traj] o 0 0) as [A _]; try reflexivity; try exact Ho.
  - exact ex_film_valid.
  - discriminate.
  - cbn. lra.
  - intros t [<-|[]]. exact Hc.
  - split; [lra|]. split; [lra|]. split; [unfold snell; rewrite sin_0; ring|]. intros t [<-|[]]. cbn. rewrite cos_0. apply Rabs_R1.
  - cbn. lra.
  - rewrite N. cbn [p_nmedium ex_film]. lra.
  - rewrite N in A. cbn [p_nmedium ex_film] in A. lra.
Qed.
