(** Lemmas for effective media. *)
From Coq Require Import Lra Lia Psatz Permutation.
From Coquelicot Require Import Rcomplements.
From Verif Require Import Spec L_num M_refractive_index Spec_optics L_effindex L_bruggeman
  Spec_mixture.
Open Scope R_scope.

Lemma bg_real_average : forall F N t,
  bg_real F N t
  = volume_average (fun n => (n * n - t) / (n * n + 2 * t)) (combine F N).
Proof.
  induction F as [|f F IH]; intros [|n N] t; try reflexivity.
  cbn [bg_real combine]. unfold volume_average in *. cbn [map total].
  rewrite IH. unfold Rdiv. ring.
Qed.

Lemma permutation_total : forall l m : list R, Permutation l m -> total l = total m.
Proof. intros l m H. induction H; cbn [total]; lra. Qed.

Lemma average_permutation : forall g P Q,
  Permutation P Q -> volume_average g P = volume_average g Q.
Proof. intros g P Q H. apply permutation_total. apply Permutation_map. exact H. Qed.

Lemma average_le : forall g h F N,
  Forall (fun f => 0 <= f) F -> Forall (fun n => 0 < n) N ->
  (forall n, 0 < n -> g n <= h n) ->
  volume_average g (combine F N) <= volume_average h (combine F N).
Proof.
  intros g h F N HF HN H. revert N HN.
  induction F as [|f F IH]; intros N HN; [apply Rle_refl|].
  destruct N as [|n N]; [apply Rle_refl|].
  inversion HF as [|? ? A B]; subst. inversion HN as [|? ? A' B']; subst.
  unfold volume_average in *. cbn [combine map total].
  pose proof (IH B N B'). pose proof (H n A').
  pose proof (Rmult_le_compat_l f _ _ A H1). lra.
Qed.

Lemma average_affine : forall g a b F N, length F = length N ->
  volume_average (fun n => a + b * g n) (combine F N)
  = a * total F + b * volume_average g (combine F N).
Proof.
  intros g a b F. induction F as [|f F IH]; intros [|n N] L; try discriminate L.
  - unfold volume_average; cbn. ring.
  - unfold volume_average in *. cbn [combine map total].
    rewrite (IH N) by (cbn in L; congruence). ring.
Qed.

Section Mix.
Variables (np : list R) (nm : R) (vf : list R).
Hypothesis HM : mixture np nm vf.
Let F := bg_fractions vf.
Let N := np ++ [nm].

Lemma mix_F : Forall (fun f => 0 <= f) F.
Proof. destruct HM as (A & B & D & E & L). apply bg_fractions_nonneg; assumption. Qed.
Lemma mix_N : Forall (fun n => 0 < n) N.
Proof.
  destruct HM as (A & B & D & E & L).
  apply Forall_app; split; [assumption | constructor; [assumption | constructor]].
Qed.
Lemma mix_len : length F = length N.
Proof.
  destruct HM as (A & B & D & E & L). unfold F, N, bg_fractions.
  rewrite !app_length. cbn. lia.
Qed.
Lemma mix_total : total F = 1.
Proof. apply bg_fractions_total. Qed.

Lemma mix_root : forall fs n, bruggeman_index fs np nm vf n ->
  0 < n /\ bg_real F N (n * n) = 0.
Proof.
  intros fs n (H & P & B). split; [exact P|].
  rewrite bruggeman_sum_bg, <- bg_fractions_eq in B.
  destruct HM as (A1 & A2 & A3 & A4 & A5).
  exact (bg_root_sq vf np nm A3 A4 A1 A2 A5 (RtoC n) P B).
Qed.

(** A value where the equation is not negative is not above the root. *)
Lemma mix_compare : forall n x, 0 < n -> 0 < x ->
  bg_real F N (n * n) = 0 -> 0 <= bg_real F N (x * x) -> x <= n.
Proof.
  intros n x P X E G. destruct (Rle_lt_dec x n) as [L|L]; [exact L|exfalso].
  destruct (bg_real_decr F N (n * n) (x * x)) as [_ K]; auto using mix_N, mix_F, mix_len; try nra.
  rewrite mix_total in K. specialize (K Rlt_0_1). lra.
Qed.

Lemma mix_compare_strict : forall n x, 0 < n -> 0 < x ->
  bg_real F N (n * n) = 0 -> 0 < bg_real F N (x * x) -> x < n.
Proof.
  intros n x P X E G. destruct (mix_compare n x P X E (Rlt_le _ _ G)) as [L| ->];
    [exact L | lra].
Qed.

Lemma mix_compare_le : forall n x, 0 < n -> 0 < x ->
  bg_real F N (n * n) = 0 -> bg_real F N (x * x) <= 0 -> n <= x.
Proof.
  intros n x P X E G. destruct (Rle_lt_dec n x) as [L|L]; [exact L|exfalso].
  destruct (bg_real_decr F N (x * x) (n * n)) as [_ K]; auto using mix_N, mix_F, mix_len; try nra.
  rewrite mix_total in K. specialize (K Rlt_0_1). lra.
Qed.

Lemma mix_arithmetic : forall n, 0 < n -> bg_real F N (n * n) = 0 ->
  n * n <= volume_average (fun m => m ^ 2) (combine F N).
Proof.
  intros n P E. rewrite bg_real_average in E.
  assert (T0 : 0 < n * n) by nra.
  pose proof (average_le (fun m => (m * m - n * n) / (m * m + 2 * (n * n)))
    (fun m => - (1 / 3) + 1 / (3 * (n * n)) * m ^ 2) F N mix_F mix_N) as K.
  rewrite (average_affine (fun m => m ^ 2)), mix_total, E in K by exact mix_len.
  assert (Q : 0 <= - (1 / 3) * 1
     + 1 / (3 * (n * n)) * volume_average (fun m => m ^ 2) (combine F N)).
  { apply K. intros m Hm. set (u := n * n) in *. clearbody u.
    assert (0 < m * m) by nra.
    apply Rminus_le_0.
    replace (_ - _) with ((m * m - u) ^ 2 / (3 * u * (m * m + 2 * u))) by (field; nra).
    apply Rmult_le_pos; [apply pow2_ge_0|].
    apply Rlt_le, Rinv_0_lt_compat. nra. }
  set (A := volume_average _ _) in *. clearbody A. clear K E.
  set (u := n * n) in *. clearbody u.
  apply (Rmult_le_reg_l (1 / (3 * u))); [apply Rdiv_lt_0_compat; lra|].
  replace (1 / (3 * u) * u) with (1 / 3) by (field; lra). lra.
Qed.

Lemma mix_harmonic : forall n, 0 < n -> bg_real F N (n * n) = 0 ->
  1 <= n * n * volume_average (fun m => 1 / m ^ 2) (combine F N).
Proof.
  intros n P E. rewrite bg_real_average in E.
  assert (T0 : 0 < n * n) by nra.
  pose proof (average_le (fun m => 1 / 3 + (- (n * n) / 3) * (1 / m ^ 2))
    (fun m => (m * m - n * n) / (m * m + 2 * (n * n))) F N mix_F mix_N) as K.
  rewrite (average_affine (fun m => 1 / m ^ 2)), mix_total, E in K by exact mix_len.
  assert (Q : 1 / 3 * 1
     + - (n * n) / 3 * volume_average (fun m => 1 / m ^ 2) (combine F N) <= 0).
  { apply K. intros m Hm. set (u := n * n) in *. clearbody u.
    assert (0 < m * m) by nra.
    apply Rminus_le_0.
    replace (_ - _) with (2 * (m * m - u) ^ 2 / (3 * (m * m) * (m * m + 2 * u)))
      by (field; split; nra).
    apply Rmult_le_pos; [pose proof (pow2_ge_0 (m * m - u)); lra|].
    apply Rlt_le, Rinv_0_lt_compat. nra. }
  lra.
Qed.
End Mix.

(** More index means more of the Bruggeman term. *)
Lemma term_incr : forall a b t, 0 < a -> a <= b -> 0 < t ->
  (a * a - t) / (a * a + 2 * t) <= (b * b - t) / (b * b + 2 * t).
Proof.
  intros a b t Ha Hb Ht. assert (a * a <= b * b) by nra. assert (0 < a * a) by nra.
  apply Rminus_le_0.
  replace (_ - _) with (3 * t * (b * b - a * a) / ((b * b + 2 * t) * (a * a + 2 * t)))
    by (field; nra).
  apply Rmult_le_pos; [nra|]. apply Rlt_le, Rinv_0_lt_compat. nra.
Qed.

Lemma term_incr_strict : forall a b t, 0 < a -> a < b -> 0 < t ->
  (a * a - t) / (a * a + 2 * t) < (b * b - t) / (b * b + 2 * t).
Proof.
  intros a b t Ha Hb Ht. assert (a * a < b * b) by nra. assert (0 < a * a) by nra.
  apply Rminus_lt_0.
  replace (_ - _) with (3 * t * (b * b - a * a) / ((b * b + 2 * t) * (a * a + 2 * t)))
    by (field; nra).
  apply Rdiv_lt_0_compat; nra.
Qed.

Lemma bg_real_index : forall F N N' t, 0 < t ->
  Forall (fun f => 0 <= f) F -> Forall (fun n => 0 < n) N -> Forall2 Rle N N' ->
  bg_real F N t <= bg_real F N' t.
Proof.
  intros F N N' t Ht HF HN H. revert F HF.
  induction H as [|a b N N' Hab H IH]; intros F HF; destruct F as [|f F];
    try apply Rle_refl.
  inversion HF as [|? ? A B]; subst. inversion HN as [|? ? A' B']; subst.
  cbn [bg_real]. pose proof (IH B' F B).
  pose proof (Rmult_le_compat_l f _ _ A (term_incr a b t A' Hab Ht)).
  unfold Rdiv in *. lra.
Qed.

(** Adding a last constituent. *)
Lemma bg_real_snoc : forall F N f n t, length F = length N ->
  bg_real (F ++ [f]) (N ++ [n]) t
  = bg_real F N t + f * ((n * n - t) / (n * n + 2 * t)).
Proof.
  induction F as [|g F IH]; intros [|m N] f n t L; try discriminate L.
  - cbn [bg_real app]. unfold Rdiv. ring.
  - cbn [bg_real app]. rewrite IH by (cbn in L; congruence). unfold Rdiv. ring.
Qed.

Lemma bg_real_exchange : forall np nm vf vf' t, 0 < t -> 0 < nm ->
  Forall (fun n => 0 < n) np ->
  length np = length vf -> length vf' = length vf ->
  (forall i, (i < length vf)%nat ->
     0 <= (nth i vf' 0 - nth i vf 0) * (nth i np 0 - nm)) ->
  let d := bg_real vf' np t - total vf' * ((nm * nm - t) / (nm * nm + 2 * t))
           - (bg_real vf np t - total vf * ((nm * nm - t) / (nm * nm + 2 * t))) in
  0 <= d /\
  ((exists i, (i < length vf)%nat /\
     0 < (nth i vf' 0 - nth i vf 0) * (nth i np 0 - nm)) -> 0 < d).
Proof.
  intros np nm vf vf' t Ht Hm Hn. revert vf vf'.
  induction Hn as [|a np Ha Hn IH]; intros vf vf' L L' H d.
  - destruct vf; [|discriminate L]. destruct vf'; [|discriminate L'].
    subst d; cbn. split; [lra|]. intros (i & Hi & _). lia.
  - destruct vf as [|f vf]; [discriminate L|]. destruct vf' as [|f' vf']; [discriminate L'|].
    cbn in L, L'. destruct (IH vf vf') as [I1 I2]; [lia | lia | |].
    { intros i Hi. exact (H (S i) ltac:(cbn; lia)). }
    pose proof (H 0%nat ltac:(cbn; lia)) as H0. cbn [nth] in H0.
    set (gm := (nm * nm - t) / (nm * nm + 2 * t)) in *.
    set (ga := (a * a - t) / (a * a + 2 * t)).
    assert (E : d = (f' - f) * (ga - gm)
      + (bg_real vf' np t - total vf' * gm - (bg_real vf np t - total vf * gm))).
    { subst d. cbn [bg_real total]. unfold ga, Rdiv. ring. }
    assert (G : 0 <= (f' - f) * (ga - gm) /\
                (0 < (f' - f) * (a - nm) -> 0 < (f' - f) * (ga - gm))).
    { destruct (Rtotal_order a nm) as [Q|[Q|Q]].
      - pose proof (term_incr_strict a nm t Ha Q Ht). fold ga gm in H1. split; [|intros]; nra.
      - subst a. fold gm in ga. subst ga. split; [|intros]; nra.
      - pose proof (term_incr_strict nm a t Hm Q Ht). fold ga gm in H1. split; [|intros]; nra. }
    rewrite E. destruct G as [G1 G2]. split; [lra|].
    intros (i & Hi & Hs). destruct i as [|i]; cbn [nth] in Hs.
    + specialize (G2 Hs). lra.
    + assert (exists i, (i < length vf)%nat /\
        0 < (nth i vf' 0 - nth i vf 0) * (nth i np 0 - nm)) as X.
      { exists i. cbn in Hi. split; [lia | exact Hs]. }
      specialize (I2 X). lra.
Qed.

(** Two constituents. *)
Lemma two_real : forall p n f t,
  bg_real [f; 1 - f] [p; n] t
  = f * ((p * p - t) / (p * p + 2 * t)) + (1 - f) * ((n * n - t) / (n * n + 2 * t)).
Proof. intros. cbn. unfold Rdiv. ring. Qed.

Lemma one_fractions : forall f, bg_fractions [f] = [f; 1 - f].
Proof.
  intros f. rewrite bg_fractions_eq. cbn [total app].
  replace (1 - (f + 0)) with (1 - f) by ring. reflexivity.
Qed.

Lemma one_mixture : forall p n f, 0 < p -> 0 < n -> 0 <= f <= 1 -> mixture [p] n [f].
Proof.
  intros p n f Hp Hn Hf. unfold mixture. cbn [total length].
  split; [constructor; [exact Hp | constructor]|].
  split; [exact Hn|]. split; [constructor; [lra | constructor]|].
  split; [lra | reflexivity].
Qed.

Lemma one_root : forall fs p n f r, 0 < p -> 0 < n -> 0 <= f <= 1 ->
  bruggeman_index fs [p] n [f] r ->
  0 < r /\ f * ((p * p - r * r) / (p * p + 2 * (r * r)))
           + (1 - f) * ((n * n - r * r) / (n * n + 2 * (r * r))) = 0.
Proof.
  intros fs p n f r Hp Hn Hf H.
  destruct (mix_root [p] n [f] (one_mixture p n f Hp Hn Hf) fs r H) as [A B].
  split; [exact A|]. rewrite one_fractions in B. cbn [app] in B.
  rewrite two_real in B. exact B.
Qed.

(** At the Maxwell-Garnett permittivity with host [e] and inclusion [p],
    Bruggeman's equation has the sign of [p - e]. *)
Lemma mg_in_bg : forall p e f, 0 < p -> 0 < e -> 0 <= f <= 1 ->
  let t := mg_eps p e f in
  exists k, 0 <= k /\
    f * ((p - t) / (p + 2 * t)) + (1 - f) * ((e - t) / (e + 2 * t)) = k * (p - e).
Proof.
  intros p e f Hp He Hf t.
  pose proof (mg_eps_pos p e f Hp He Hf) as Ht. fold t in Ht.
  pose proof (mg_eps_relation p e f Hp He Hf) as E. fold t in E. clearbody t.
  exists ((1 - f) * (2 * (t - e) ^ 2) / (3 * e * (p + 2 * t) * (e + 2 * t))).
  split.
  - apply Rmult_le_pos.
    + apply Rmult_le_pos; [lra|]. pose proof (pow2_ge_0 (t - e)). lra.
    + apply Rlt_le, Rinv_0_lt_compat. repeat apply Rmult_lt_0_compat; lra.
  - assert (E' : 3 * e * f * (p - t) = (1 - f) * (t - e) * (p + 2 * e)) by nra.
    replace (f * ((p - t) / (p + 2 * t)))
      with ((3 * e * f * (p - t)) / (3 * e * (p + 2 * t))) by (field; lra).
    rewrite E'. field. lra.
Qed.

(** How far the permittivity of a dilute mixture is from the matrix's. *)
Lemma mg_first : forall p e, 0 < p -> 0 < e ->
  exists k, 0 <= k /\ forall f, 0 <= f <= 1 ->
    Rabs (mg_eps p e f - e - f * (3 * e * (p - e) / (p + 2 * e))) <= k * f ^ 2.
Proof.
  intros p e Hp He.
  exists ((p - e) ^ 2 * (3 * e) / ((p + 2 * e) * Rmin (2 * e + p) (3 * e))).
  assert (M : 0 < Rmin (2 * e + p) (3 * e)) by (apply Rmin_glb_lt; lra).
  assert (0 < (p + 2 * e) * Rmin (2 * e + p) (3 * e)) by (apply Rmult_lt_0_compat; lra).
  split.
  - apply Rmult_le_pos; [|apply Rlt_le, Rinv_0_lt_compat; assumption].
    pose proof (pow2_ge_0 (p - e)). nra.
  - intros f Hf. pose proof (mg_den_pos p e f Hp He Hf) as D.
    replace (mg_eps p e f - e - f * (3 * e * (p - e) / (p + 2 * e)))
      with (f ^ 2 * ((p - e) ^ 2 * (3 * e)
              / ((p + 2 * e) * (2 * e + p - f * (p - e))))) by (unfold mg_eps; field; lra).
    assert (G : Rmin (2 * e + p) (3 * e) <= 2 * e + p - f * (p - e)).
    { destruct (Rle_lt_dec e p).
      - eapply Rle_trans; [apply Rmin_r|]. nra.
      - eapply Rle_trans; [apply Rmin_l|]. nra. }
    pose proof (pow2_ge_0 f). pose proof (pow2_ge_0 (p - e)).
    rewrite Rabs_pos_eq.
    + rewrite Rmult_comm. apply Rmult_le_compat_r; [assumption|].
      apply Rmult_le_compat_l; [nra|]. apply Rinv_le_contravar; [assumption|].
      apply Rmult_le_compat_l; lra.
    + apply Rmult_le_pos; [assumption|]. apply Rmult_le_pos; [nra|].
      apply Rlt_le, Rinv_0_lt_compat. apply Rmult_lt_0_compat; lra.
Qed.

Lemma bg_first : forall p e, 0 < p -> 0 < e ->
  exists k, 0 <= k /\ forall f t, 0 <= f <= 1 -> Rmin p e <= t <= Rmax p e ->
    f * ((p - t) / (p + 2 * t)) + (1 - f) * ((e - t) / (e + 2 * t)) = 0 ->
    Rabs (t - e - f * (3 * e * (p - e) / (p + 2 * e))) <= k * f ^ 2.
Proof.
  intros p e Hp He.
  set (B := Rabs (p - e)). set (H := B * (e + 2 * Rmax p e) / p).
  set (Q := ((2 * p + 5 * e + 2 * B) * (p + 2 * e) + 6 * e * B) / (p * (p + 2 * e))).
  assert (HB : 0 <= B) by apply Rabs_pos.
  assert (Hx : e <= Rmax p e) by apply Rmax_r.
  assert (HH : 0 <= H).
  { unfold H. apply Rmult_le_pos; [nra|]. apply Rlt_le, Rinv_0_lt_compat; lra. }
  assert (HQ : 0 <= Q).
  { unfold Q. apply Rmult_le_pos; [nra|]. apply Rlt_le, Rinv_0_lt_compat; nra. }
  assert (KH : 0 <= (B + H) * (1 + Q)) by nra.
  exists ((B + H) * (1 + Q)). split; [exact KH|].
  intros f t Hf Ht E.
  assert (Hmin : 0 < Rmin p e) by (apply Rmin_glb_lt; lra).
  assert (T0 : 0 < t) by lra.
  assert (Hd : Rabs (p - t) <= B /\ Rabs (t - e) <= B).
  { unfold B. destruct (Rle_lt_dec p e) as [L|L].
    - rewrite Rmin_left, Rmax_right in Ht by lra. rewrite !Rabs_left1 by lra. lra.
    - rewrite Rmin_right, Rmax_left in Ht by lra. rewrite !Rabs_pos_eq by lra. lra. }
  destruct Hd as [Hd1 Hd2].
  (* h *)
  set (h := fun t => (p - t) * (e + 2 * t) / (p + 2 * t)).
  assert (E1 : (1 - f) * (t - e) = f * h t).
  { assert (G : f * ((p - t) / (p + 2 * t)) * (e + 2 * t)
              = (1 - f) * ((t - e) / (e + 2 * t)) * (e + 2 * t)).
    { replace ((1 - f) * ((t - e) / (e + 2 * t)))
        with (- ((1 - f) * ((e - t) / (e + 2 * t)))) by (field; lra).
      replace (f * ((p - t) / (p + 2 * t)))
        with (- ((1 - f) * ((e - t) / (e + 2 * t)))) by lra. reflexivity. }
    unfold h. replace ((1 - f) * (t - e))
      with ((1 - f) * ((t - e) / (e + 2 * t)) * (e + 2 * t)) by (field; lra).
    rewrite <- G. field. lra. }
  assert (Hh : Rabs (h t) <= H).
  { unfold h, H, Rdiv. rewrite !Rabs_mult.
    rewrite (Rabs_pos_eq (e + 2 * t)) by lra.
    rewrite (Rabs_pos_eq (/ _)) by (apply Rlt_le, Rinv_0_lt_compat; lra).
    apply Rmult_le_compat.
    - apply Rmult_le_pos; [apply Rabs_pos | lra].
    - apply Rlt_le, Rinv_0_lt_compat; lra.
    - apply Rmult_le_compat; [apply Rabs_pos | lra | exact Hd1 | lra].
    - apply Rinv_le_contravar; lra. }
  assert (Dt : Rabs (t - e) <= f * (B + H)).
  { replace (t - e) with (f * (t - e) + f * h t) by lra.
    eapply Rle_trans; [apply Rabs_triang|]. rewrite !Rabs_mult, (Rabs_pos_eq f) by lra.
    pose proof (Rmult_le_compat_l f _ _ (proj1 Hf) Hd2).
    pose proof (Rmult_le_compat_l f _ _ (proj1 Hf) Hh). lra. }
  set (q := ((2 * p - 5 * e - 2 * (t - e)) * (p + 2 * e) - 6 * e * (p - e))
            / ((p + 2 * t) * (p + 2 * e))).
  assert (E2 : h t - h e = (t - e) * q) by (unfold h, q; field; lra).
  assert (Hq : Rabs q <= Q).
  { unfold q, Q, Rdiv. rewrite Rabs_mult.
    rewrite (Rabs_pos_eq (/ _)) by (apply Rlt_le, Rinv_0_lt_compat; nra).
    apply Rmult_le_compat; [apply Rabs_pos | apply Rlt_le, Rinv_0_lt_compat; nra | |].
    - assert (Z1 : - B <= t - e <= B) by (apply Rabs_le_between; exact Hd2).
      assert (Z2 : - B <= p - e <= B) by (apply Rabs_le_between; apply Rle_refl).
      apply Rabs_le. split; nra.
    - apply Rinv_le_contravar; nra. }
  replace (t - e - f * (3 * e * (p - e) / (p + 2 * e)))
    with (f * (t - e) + f * ((t - e) * q)).
  2:{ assert (E3 : h e = 3 * e * (p - e) / (p + 2 * e)) by (unfold h; field; lra).
      rewrite <- E3, <- E2. lra. }
  replace (f * (t - e) + f * ((t - e) * q)) with (f * (t - e) * (1 + q)) by ring.
  rewrite !Rabs_mult, (Rabs_pos_eq f) by lra.
  assert (Rabs (1 + q) <= 1 + Q).
  { eapply Rle_trans; [apply Rabs_triang|]. rewrite Rabs_R1. lra. }
  apply Rle_trans with (f * (f * (B + H)) * (1 + Q)); [|right; ring].
  apply Rmult_le_compat; [|apply Rabs_pos | |assumption].
  - apply Rmult_le_pos; [lra | apply Rabs_pos].
  - apply Rmult_le_compat_l; [lra | exact Dt].
Qed.
