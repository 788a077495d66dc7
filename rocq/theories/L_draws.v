(** Angles drawn from the phase functions calc_scat returns (C129). *)
From Coq Require Import Lia Lra.
From Verif Require Import Num Spec Spec_scatter Spec_optics L_num M_model M_montecarlo M_structure
  M_refractive_index M_reflection M_scat Spec_reflection Spec_scat Spec_scat_cplx
  L_montecarlo2 L_slots L_sizes L_sampling.
Open Scope R_scope.

Lemma total_pos_at (w : nat -> R) n k : (forall i, (i < n)%nat -> 0 <= w i) -> (k < n)%nat -> 0 < w k ->
  0 < total (map w (seq 0 n)).
Proof.
  intros Hw Hk Hp. replace n with (k + S (n - S k))%nat by lia.
  rewrite seq_app, map_app, total_app. cbn [Nat.add seq map total].
  assert (0 <= total (map w (seq 0 k))).
  { apply total_map_nonneg. intros i Hi. apply in_seq in Hi. apply Hw. lia. }
  assert (0 <= total (map w (seq (S k) (n - S k)))).
  { apply total_map_nonneg. intros i Hi. apply in_seq in Hi. apply Hw. lia. }
  lra.
Qed.
Lemma picks_positive w n u i : (forall j, (j < n)%nat -> 0 <= w j) -> picks w n u i -> 0 < w i.
Proof.
  intros Hw (Hi & A & B). rewrite seq_S, map_app, total_app in B. cbn [Nat.add map total] in B. lra.
Qed.

Lemma linspace_grid lo hi n : linspace lo hi n = map (grid lo hi n) (seq 0 n).
Proof. reflexivity. Qed.

Lemma sin_grid lo n i : 0 < lo <= PI -> (i < n)%nat -> 0 <= sin (grid lo PI n i)
  /\ (grid lo PI n i < PI <-> 0 < sin (grid lo PI n i)).
Proof.
  intros Hlo Hi. pose proof (grid_range lo PI n i ltac:(lra) Hi) as Hg. split; [apply sin_ge_0; lra|].
  split; intros H.
  - apply sin_gt_0; lra.
  - destruct (Rle_lt_or_eq_dec _ _ (proj2 Hg)) as [|E]; [assumption|]. rewrite E, sin_PI in H. lra.
Qed.

Lemma draws_1d (f : R -> R) s lo n nev ntraj up ut :
  0 < lo <= PI -> 0 < s -> (forall t, In t (linspace lo PI n) -> 0 <= f t) ->
  (exists t, In t (linspace lo PI n) /\ t < PI /\ 0 < f t) ->
  (forall e i, 0 <= up e i < 1 /\ 0 <= ut e i < 1) ->
  exists l, sample_angles_1d nev ntraj (map (fun t => f t / s) (linspace lo PI n)) lo up ut = Ok l
    /\ length l = (nev - 1)%nat
    /\ forall e row, nth_error l e = Some row -> length row = ntraj
        /\ forall t theta phi, nth_error row t = Some (theta, phi) ->
             In theta (linspace lo PI n) /\ theta < PI /\ 0 < f theta /\ phi = 2 * PI * up e t.
Proof.
  intros Hlo Hs Hf (t0 & Ht0 & Hl0 & Hp0) Hu. unfold sample_angles_1d.
  set (q := map (fun t => f t / s) (linspace lo PI n)).
  assert (Lq : length q = n) by (unfold q; now rewrite map_length, linspace_length).
  assert (Nq : forall i, (i < n)%nat -> nth i q 0 = f (grid lo PI n i) / s).
  { intros i Hi. unfold q. rewrite linspace_grid, map_map. now apply (nth_map_seq (fun i => f (grid lo PI n i) / s)). }
  assert (Ig : forall i, (i < n)%nat -> In (grid lo PI n i) (linspace lo PI n)).
  { intros i Hi. rewrite linspace_grid. apply in_map, in_seq. lia. }
  set (w := fun i => nth i q 0 * sin (grid lo PI (length q) i)).
  assert (Hw : forall i, (i < length q)%nat -> 0 <= w i).
  { intros i Hi. unfold w. rewrite Lq in Hi |- *. rewrite Nq by exact Hi. apply Rmult_le_pos; [|now apply sin_grid].
    apply Rmult_le_pos; [apply Hf, Ig, Hi|left; now apply Rinv_0_lt_compat]. }
  assert (Hq : Forall (fun x => 0 <= x) q).
  { unfold q. apply Forall_map, Forall_forall. intros t Ht. apply Rmult_le_pos; [now apply Hf|left; now apply Rinv_0_lt_compat]. }
  assert (Hpos : 0 < total (map w (seq 0 (length q)))).
  { rewrite linspace_grid in Ht0. apply in_map_iff in Ht0 as (k & E & Hk). apply in_seq in Hk.
    apply (total_pos_at w (length q) k Hw); [lia|]. unfold w. rewrite Lq, Nq by lia. rewrite E.
    apply Rmult_lt_0_compat; [now apply Rdiv_lt_0_compat|]. rewrite <- E in Hl0 |- *. apply sin_grid; [exact Hlo|lia|exact Hl0]. }
  destruct (events_of_ok (fun e i => sample_angle_1d q lo (up e i) (ut e i)) (fun e t a =>
     In (fst a) (linspace lo PI n) /\ fst a < PI /\ 0 < f (fst a) /\ snd a = 2 * PI * up e t) (nev - 1) ntraj) as (l & El & Ll & Hl).
  2:{ exists l. split; [exact El|]. split; [exact Ll|]. intros e row Hrow. destruct (Hl e row Hrow) as [L1 L2].
      split; [exact L1|]. intros t theta phi Ha. exact (L2 t (theta, phi) Ha). }
  intros e i _ _. destruct (Hu e i) as [U1 U2].
  destruct (angle_1d q lo (up e i) (ut e i) ltac:(lra) Hq U2 Hpos) as (k & E & Hk).
  eexists. split; [exact E|]. cbn [fst snd]. pose proof (picks_positive _ _ _ _ Hw Hk) as Pk.
  destruct Hk as [Hk _]. rewrite Lq in Hk |- *. unfold w in Pk. rewrite Lq, Nq in Pk by exact Hk.
  split; [apply Ig, Hk|]. destruct (sin_grid lo n k Hlo Hk) as [G1 G2].
  assert (F0 : 0 <= f (grid lo PI n k)) by (apply Hf, Ig, Hk).
  assert (S0 : 0 < sin (grid lo PI n k)).
  { destruct (Rle_lt_or_eq_dec _ _ G1) as [|Z]; [assumption|]. rewrite <- Z in Pk. lra. }
  split; [now apply G2|]. split; [|reflexivity].
  destruct (Rle_lt_or_eq_dec _ _ F0) as [|Z]; [assumption|]. rewrite <- Z in Pk. unfold Rdiv in Pk. lra.
Qed.

Lemma draws_2d (f : R -> R -> R) s lo n nphi nev ntraj up ut :
  0 < lo <= PI -> 0 < s -> (0 < nphi)%nat ->
  (forall t p, In t (linspace lo PI n) -> 0 <= f t p) ->
  (forall p, In p (linspace lo (2 * PI) nphi) -> exists t, In t (linspace lo PI n) /\ t < PI /\ 0 < f t p) ->
  (forall e i, 0 <= up e i < 1 /\ 0 <= ut e i < 1) ->
  exists l, sample_angles_2d nev ntraj (map (fun t => map (fun p => f t p / s) (linspace lo (2 * PI) nphi)) (linspace lo PI n)) lo up ut = Ok l
    /\ length l = (nev - 1)%nat
    /\ forall e row, nth_error l e = Some row -> length row = ntraj
        /\ forall t theta phi, nth_error row t = Some (theta, phi) ->
             In theta (linspace lo PI n) /\ theta < PI /\ In phi (linspace lo (2 * PI) nphi) /\ 0 < f theta phi.
Proof.
  intros Hlo Hs Hnp Hf Hex Hu. unfold sample_angles_2d. pose proof PI_RGT_0 as HP.
  set (q := map (fun t => map (fun p => f t p / s) (linspace lo (2 * PI) nphi)) (linspace lo PI n)).
  assert (Si : 0 < / s) by now apply Rinv_0_lt_compat.
  assert (Tq : table q n nphi).
  { split; [unfold q; now rewrite map_length, linspace_length|]. unfold q. apply Forall_map, Forall_forall. intros t Ht.
    split; [now rewrite map_length, linspace_length|]. apply Forall_map, Forall_forall. intros p _.
    apply Rmult_le_pos; [now apply Hf|lra]. }
  assert (Ig : forall i, (i < n)%nat -> In (grid lo PI n i) (linspace lo PI n)).
  { intros i Hi. rewrite linspace_grid. apply in_map, in_seq. lia. }
  assert (Ip : forall i, (i < nphi)%nat -> In (grid lo (2 * PI) nphi i) (linspace lo (2 * PI) nphi)).
  { intros i Hi. rewrite linspace_grid. apply in_map, in_seq. lia. }
  assert (Nq : forall i j, (i < n)%nat -> (j < nphi)%nat -> entry q i j = f (grid lo PI n i) (grid lo (2 * PI) nphi j) / s).
  { intros i j Hi Hj. unfold entry, q. rewrite (linspace_grid lo PI), map_map.
    rewrite (nth_map_seq (fun i => map (fun p => f (grid lo PI n i) p / s) (linspace lo (2 * PI) nphi)) n i) by exact Hi.
    rewrite linspace_grid, map_map. now apply (nth_map_seq (fun j => f (grid lo PI n i) (grid lo (2 * PI) nphi j) / s)). }
  set (c := fun j => total (map (fun i => entry q i j) (seq 0 n))).
  set (w := fun j i => entry q i j * sin (grid lo PI n i)).
  assert (E0 : forall i j, (i < n)%nat -> (j < nphi)%nat -> 0 <= entry q i j).
  { intros i j Hi Hj. rewrite Nq by assumption. apply Rmult_le_pos; [now apply Hf, Ig|lra]. }
  assert (Hw : forall j, (j < nphi)%nat -> forall i, (i < n)%nat -> 0 <= w j i).
  { intros j Hj i Hi. apply Rmult_le_pos; [now apply E0|now apply sin_grid]. }
  assert (Hk : forall j, (j < nphi)%nat -> exists k, (k < n)%nat /\ 0 < entry q k j /\ 0 < w j k).
  { intros j Hj. destruct (Hex _ (Ip j Hj)) as (t & Ht & Hl & Hp). rewrite linspace_grid in Ht.
    apply in_map_iff in Ht as (k & E & Hk). apply in_seq in Hk. exists k. split; [lia|].
    assert (0 < entry q k j) by (rewrite Nq by lia; rewrite E; now apply Rdiv_lt_0_compat).
    split; [assumption|]. apply Rmult_lt_0_compat; [assumption|]. apply sin_grid; [exact Hlo|lia|now rewrite E]. }
  assert (Hn : (0 < n)%nat) by (destruct (Hk 0%nat Hnp) as (k & Hk' & _); lia).
  assert (W1 : forall j, (j < nphi)%nat -> 0 < c j -> 0 < total (map (w j) (seq 0 n))).
  { intros j Hj _. destruct (Hk j Hj) as (k & Hk' & _ & Hp). exact (total_pos_at (w j) n k (Hw j Hj) Hk' Hp). }
  assert (W2 : forall j, (j < nphi)%nat -> 0 < c j).
  { intros j Hj. destruct (Hk j Hj) as (k & Hk' & Hp & _).
    exact (total_pos_at (fun i => entry q i j) n k (fun i Hi => E0 i j Hi Hj) Hk' Hp). }
  assert (W3 : 0 < total (map c (seq 0 nphi))).
  { apply (total_pos_at c nphi 0%nat); [intros; left; now apply W2|exact Hnp|now apply W2]. }
  destruct (events_of_ok (fun e i => sample_angle_2d q lo (up e i) (ut e i)) (fun e t a =>
     In (fst a) (linspace lo PI n) /\ fst a < PI /\ In (snd a) (linspace lo (2 * PI) nphi) /\ 0 < f (fst a) (snd a)) (nev - 1) ntraj) as (l & El & Ll & Hl).
  2:{ exists l. split; [exact El|]. split; [exact Ll|]. intros e row Hrow. destruct (Hl e row Hrow) as [L1 L2].
      split; [exact L1|]. intros t theta phi Ha. exact (L2 t (theta, phi) Ha). }
  intros e i _ _. destruct (Hu e i) as [U1 U2].
  destruct (angle_2d q n nphi lo (up e i) (ut e i) Tq Hn ltac:(lra) U1 U2 W1 W3) as (k & j & E & Hj & Hi).
  eexists. split; [exact E|]. cbn [fst snd].
  pose proof (picks_positive _ _ _ _ (Hw j (proj1 Hj)) Hi) as Pk. destruct Hj as [Hj _]. destruct Hi as [Hi _].
  destruct (sin_grid lo n k Hlo Hi) as [G1 G2]. pose proof (E0 k j Hi Hj) as F0. unfold w in Pk. fold (w j k) in Pk. unfold w in Pk.
  assert (S0 : 0 < sin (grid lo PI n k)).
  { destruct (Rle_lt_or_eq_dec _ _ G1) as [|Z]; [assumption|]. rewrite <- Z in Pk. lra. }
  split; [now apply Ig|]. split; [now apply G2|]. split; [now apply Ip|].
  rewrite Nq in Pk, F0 by assumption. pose proof (Hf (grid lo PI n k) (grid lo (2 * PI) nphi j) (Ig k Hi)) as F1.
  destruct (Rle_lt_or_eq_dec _ _ F1) as [|Z]; [assumption|]. rewrite <- Z in Pk. unfold Rdiv in Pk. lra.
Qed.
