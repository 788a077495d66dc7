(** Which event is recorded as the exit from a sphere (C88). *)
From Coq Require Import Lra Lia Psatz.
From Verif Require Export L_outcomes.
Open Scope R_scope.

Lemma outside_iff r p : outside r p = false <-> in_sphere r p.
Proof. unfold outside, in_sphere. apply Rltb_false. Qed.

Lemma outside_iff_true r p : outside r p = true <-> ~ in_sphere r p.
Proof.
  rewrite <- outside_iff. destruct (outside r p); split; congruence.
Qed.

Lemma stays_inside ns nm th zl t :
  wf_len t -> (forall p, In p (tl (t_pos t)) -> in_sphere (th / 2) p) ->
  event_indices ns nm th zl sphere t = (0, 0, length (t_dir t), 0)%nat.
Proof.
  intros Hw Hin. unfold event_indices. cbn [find_valid_exits]. unfold find_valid_exits_sphere.
  set (pot := map (outside (th / 2)) (tl (t_pos t))).
  assert (Hp : pot = repeat false (length (t_dir t))).
  { unfold pot. destruct Hw as (Hl & _). 
    assert (L : length (tl (t_pos t)) = length (t_dir t)) by (rewrite tl_length; lia).
    rewrite <- L. clear L Hl. induction (tl (t_pos t)) as [|p l IH]; [reflexivity|].
    cbn. f_equal; [apply outside_iff, Hin; now left|]. apply IH. intros q Hq. apply Hin. now right. }
  rewrite Hp. destruct (exit_kz _ _ _ _ _); unfold find_event_indices;
  assert (N : forall f : bool -> bool, f false = false -> never_true (map f (repeat false (length (t_dir t)))))
    by (intros f Hf j; rewrite <- Hf at 2; rewrite map_nth; rewrite nth_repeat; exact Hf);
  rewrite !(argmax_padded_never (map _ _)) by (apply N; reflexivity);
  rewrite map_length, repeat_length; cbn; now rewrite Nat.add_0_r.
Qed.

Lemma leaves_first r t i : wf_len t -> leaves_sphere r t i ->
  first_true (map (outside r) (tl (t_pos t))) i.
Proof.
  intros (Hl & _) (Hi & Ho & Hin).
  assert (Hn : forall j, (j < length (t_dir t))%nat ->
     nth j (map (outside r) (tl (t_pos t))) false = outside r (nth (S j) (t_pos t) vzero)).
  { intros j Hj. rewrite (nth_map_in _ _ j vzero) by (rewrite tl_length; lia). now rewrite nth_tl. }
  split; [rewrite Hn by exact Hi; now apply outside_iff_true|].
  intros j Hj. rewrite Hn by lia. apply outside_iff, Hin. lia.
Qed.

Lemma first_true_map f b i : f false = false -> first_true b i ->
  (f true = true -> first_true (map f b) i) /\ (f true = false -> never_true (map f b)).
Proof.
  intros Hf [H1 H2]. 
  assert (N : forall j, nth j (map f b) false = f (nth j b false)) by (intros j; rewrite <- Hf at 1; apply map_nth).
  split; intros Ht.
  - split; [now rewrite N, H1|]. intros j Hj. now rewrite N, H2.
  - intros j. rewrite N. destruct (nth j b false); assumption.
Qed.

Lemma leaves_events ns nm th zl t i :
  wf_len t -> leaves_sphere (th / 2) t i ->
  event_indices ns nm th zl sphere t =
    match exit_kz (S i) t th ns nm with
    | Some z => if Rltb z 0 then (S i, 0, 0, 0)%nat
                else if Rltb 0 z then (0, S i, 0, 0)%nat else (0, 0, length (t_dir t), 0)%nat
    | None => (0, 0, length (t_dir t), S i)%nat
    end.
Proof.
  intros Hw Hlv. pose proof (leaves_first _ _ _ Hw Hlv) as Hf.
  unfold event_indices. cbn [find_valid_exits]. unfold find_valid_exits_sphere.
  assert (L : length (map (outside (th / 2)) (tl (t_pos t))) = length (t_dir t)).
  { destruct Hw as (Hl & _). rewrite map_length, tl_length. lia. }
  set (pot := map (outside (th / 2)) (tl (t_pos t))) in *.
  rewrite (argmax_padded_first _ _ Hf).
  assert (Y : forall f : bool -> bool, f false = false -> f true = true -> argmax_padded (map f pot) = S i)
    by (intros f H1 H2; apply argmax_padded_first; now apply (proj1 (first_true_map f pot i H1 Hf))).
  assert (N : forall f : bool -> bool, f false = false -> f true = false -> argmax_padded (map f pot) = 0%nat)
    by (intros f H1 H2; apply argmax_padded_never; now apply (proj2 (first_true_map f pot i H1 Hf))).
  unfold find_event_indices.
  destruct (exit_kz (S i) t th ns nm) as [z|].
  - destruct (Rltb z 0) eqn:E1.
    + assert (Rltb 0 z = false) as -> by (apply Rltb_true in E1; apply Rltb_false; lra).
      rewrite (Y (fun p => p && true)), !(N (fun p => p && false)) by reflexivity. cbn.
      rewrite Nat.mul_1_r. reflexivity.
    + destruct (Rltb 0 z) eqn:E2.
      * rewrite (Y (fun p => p && true)), !(N (fun p => p && false)) by reflexivity. cbn.
        rewrite Nat.mul_1_r. reflexivity.
      * rewrite !(N (fun p => p && false)) by reflexivity. rewrite map_length, L. cbn.
        rewrite Nat.add_0_r. reflexivity.
  - rewrite (Y (fun p => p && true)), !(N (fun p => p && false)) by reflexivity. rewrite map_length, L. cbn.
    rewrite Nat.add_0_r. reflexivity.
Qed.

(** The exit angle is the true one between the step and the sphere's normal. *)
Lemma exit_angle_true th t i :
  0 < th -> wf_len t -> leaves_sphere (th / 2) t i ->
  let r := th / 2 in
  let c p := (vx p, vy p, vz p - r) in
  let p0 := c (nth i (t_pos t) vzero) in
  let p1 := c (nth (S i) (t_pos t) vzero) in
  dot p0 p0 < r ^ 2 ->
  Rabs (vx p1) <= 10 ^ 20 * r -> Rabs (vy p1) <= 10 ^ 20 * r -> Rabs (vz p1) <= 10 ^ 20 * r ->
  exists q s k, dot q q = r ^ 2 /\ 0 < s < 1 /\ q = vadd p0 (vscale s (vsub p1 p0))
    /\ unit k /\ (exists m, 0 < m /\ vsub p1 p0 = vscale m k)
    /\ 0 <= dot q k <= r
    /\ fst (sphere_exit_angle th t (S i)) = acos (dot q k / r).
Proof.
  intros Ht Hw Hlv r c p0 p1 H0 Bx By Bz.
  pose proof (leaves_first _ _ _ Hw Hlv) as Hf.
  assert (Hst : starts_in (th / 2) t).
  { unfold starts_in. apply outside_iff. apply (proj2 (proj2 Hlv)). lia. }
  destruct (first_outside_step _ _ _ Hst (proj1 Hw) Hf) as (Hk & _ & H1).
  fold r in H1. fold (c (nth (S i) (t_pos t) vzero)) in H1. fold p1 in H1.
  assert (Hr : 0 < r) by (unfold r; lra).
  destruct (normalize1_exists (vsub p1 p0)) as [k Hn]; [apply (in_out_differ p0 p1 r); lra|].
  destruct (intersect_general p0 p1 r k Hr ltac:(lra) H1 Hn) as (Hd & Hon & Hs & Hdot & E).
  destruct (intersect_spec p0 p1 r Hr H0 H1) as (Hq & s & Hs1 & Hqs).
  set (q := find_vec_sphere_intersect p0 p1 r) in *.
  destruct (normalize1_some _ _ Hn) as (Hm & Hv & Hu).
  assert (Eq : q = along p0 k (- dot k p0 + sqrt (4 * dot k p0 ^ 2 + 4 * (r ^ 2 - dot p0 p0)) / 2)).
  { rewrite E. replace (Reqb _ 0) with false; [reflexivity|]. symmetry. apply Reqb_false.
    pose proof (sq_nonneg_pow (dot k p0)). lra. }
  rewrite <- Eq in Hdot.
  pose proof (sqrt_pos (4 * dot k p0 ^ 2 + 4 * (r ^ 2 - dot p0 p0))) as Hsp.
  assert (Hqk : 0 <= dot q k <= r).
  { split; [lra|]. 
    assert (CS : dot q k ^ 2 <= r ^ 2).
    { rewrite <- Hq. clear - Hu. destruct q as [[a b] cc], k as [[u v] w]. unfold dot in *. cbn in *.
      assert (I : (a * a + b * b + cc * cc) * (u * u + v * v + w * w) - (a * u + b * v + cc * w) ^ 2
        = (a * v - b * u) ^ 2 + (a * w - cc * u) ^ 2 + (b * w - cc * v) ^ 2) by ring.
      rewrite Hu in I. pose proof (sq_nonneg_pow (a * v - b * u)). pose proof (sq_nonneg_pow (a * w - cc * u)).
      pose proof (sq_nonneg_pow (b * w - cc * v)). cbn in *. lra. }
    nra. }
  exists q, s, k. split; [exact Hq|]. split; [exact Hs1|]. split; [exact Hqs|]. split; [exact Hu|].
  split; [exists (magnitude (vsub p1 p0)); split; assumption|]. split; [exact Hqk|].
  unfold sphere_exit_angle. cbv zeta. cbn [vselect]. destruct Hw as (Hl & _).
  rewrite nth_removelast by (unfold centred; rewrite map_length; lia). rewrite nth_tl, !centred_nth by lia.
  fold r. fold (c (nth (S i) (t_pos t) vzero)) (c (nth i (t_pos t) vzero)). fold p0 p1.
  assert (EI : inf_to_large p0 p1 r = (p0, p1)).
  { unfold inf_to_large. pose proof pow20_big as Hb.
    assert (HB : r <= 10 ^ 20 * r) by nra.
    destruct (coord_le p0 r Hr ltac:(lra)) as (X & Y & Z).
    rewrite !cap_hi_lo_small, cap_hi_small by lra.
    destruct p0 as [[? ?] ?], p1 as [[? ?] ?]; reflexivity. }
  rewrite EI, Hn. fold q. unfold sphere_angle_norm. cbn [fst].
  assert (Hmq : magnitude q = r).
  { pose proof (magnitude_sq q) as M. rewrite Hq in M. pose proof (magnitude_nonneg q).
    nra. }
  unfold normalize1, div_vec. rewrite Hmq.
  replace (Reqb r 0) with false by (symmetry; apply Reqb_false; lra).
  cbn [nan_to_num]. f_equal. unfold dot, vscale. cbn [vx vy vz fst snd]. field. lra.
Qed.

Lemma sin_acos_le x : -1 <= x <= 1 -> sin (acos x) = sqrt (1 - x ^ 2).
Proof. intros H. rewrite sin_acos by exact H. f_equal. unfold Rsqr. ring. Qed.

Lemma leaves_tir ns nm th zl t i :
  0 < th -> 0 < ns -> 0 < nm -> wf_len t -> leaves_sphere (th / 2) t i ->
  let r := th / 2 in
  let c p := (vx p, vy p, vz p - r) in
  let p0 := c (nth i (t_pos t) vzero) in
  let p1 := c (nth (S i) (t_pos t) vzero) in
  dot p0 p0 < r ^ 2 ->
  Rabs (vx p1) <= 10 ^ 20 * r -> Rabs (vy p1) <= 10 ^ 20 * r -> Rabs (vz p1) <= 10 ^ 20 * r ->
  exists q s k tir, dot q q = r ^ 2 /\ 0 < s < 1 /\ q = vadd p0 (vscale s (vsub p1 p0))
    /\ unit k /\ (exists m, 0 < m /\ vsub p1 p0 = vscale m k)
    /\ snd (event_indices ns nm th zl sphere t) = tir
    /\ (nm * r < ns * sqrt (r ^ 2 - dot q k ^ 2) -> tir = S i)
    /\ (ns * sqrt (r ^ 2 - dot q k ^ 2) <= nm * r -> tir = 0%nat).
Proof.
  intros Ht Hns Hnm Hw Hlv r c p0 p1 H0 Bx By Bz.
  destruct (exit_angle_true th t i Ht Hw Hlv H0 Bx By Bz) as (q & s & k & Hq & Hs & Hqs & Hu & Hm & Hqk & Ha).
  fold r in Hq, Hqk, Ha.
  assert (Hr : 0 < r) by (unfold r; lra).
  exists q, s, k, (snd (event_indices ns nm th zl sphere t)).
  split; [exact Hq|]. split; [exact Hs|]. split; [exact Hqs|]. split; [exact Hu|]. split; [exact Hm|].
  split; [reflexivity|].
  rewrite (leaves_events ns nm th zl t i Hw Hlv).
  unfold exit_kz. destruct (sphere_exit_angle th t (S i)) as [a nv]. cbn [fst] in Ha. subst a.
  assert (Hx : 0 <= dot q k / r <= 1).
  { split; [apply Rmult_le_pos; [lra|left; apply Rinv_0_lt_compat; lra]|].
    apply Rmult_le_reg_r with r; [exact Hr|]. unfold Rdiv. rewrite Rmult_assoc, Rinv_l by lra. lra. }
  unfold refraction. rewrite sin_acos_le by lra.
  set (S1 := sqrt (1 - (dot q k / r) ^ 2)).
  assert (HS : r * S1 = sqrt (r ^ 2 - dot q k ^ 2)).
  { unfold S1. rewrite <- (sqrt_pow2 r) at 1 by lra. rewrite <- sqrt_mult.
    - f_equal. field. lra.
    - nra.
    - assert ((dot q k / r) ^ 2 <= 1) by nra. lra. }
  assert (HS0 : 0 <= S1) by apply sqrt_pos.
  rewrite <- HS.
  assert (Habs : Rabs (ns / nm * S1) = ns / nm * S1).
  { apply Rabs_pos_eq. apply Rmult_le_pos; [|exact HS0]. apply Rmult_le_pos; [lra|].
    left. now apply Rinv_0_lt_compat. }
  assert (Hval : ns / nm * S1 * (nm * r) = ns * (r * S1)) by (field; lra).
  assert (Hnr : 0 < nm * r) by nra.
  rewrite Habs. split; intros Hc.
  - rewrite (proj2 (Rltb_true 1 (ns / nm * S1))); [reflexivity|].
    apply Rmult_lt_reg_r with (nm * r); [exact Hnr|]. lra.
  - rewrite (proj2 (Rltb_false 1 (ns / nm * S1))).
    + destruct (Rltb _ 0); [reflexivity|]. now destruct (Rltb 0 _).
    + apply Rmult_le_reg_r with (nm * r); [exact Hnr|]. lra.
Qed.

Lemma leaves_matched n th zl t i :
  0 < th -> 0 < n -> wf_len t -> leaves_sphere (th / 2) t i ->
  let kz := vz (nth i (t_dir t) vzero) in
  (kz < 0 -> event_indices n n th zl sphere t = (S i, 0, 0, 0)%nat)
  /\ (0 < kz -> event_indices n n th zl sphere t = (0, S i, 0, 0)%nat)
  /\ (kz = 0 -> event_indices n n th zl sphere t = (0, 0, length (t_dir t), 0)%nat).
Proof.
  intros Ht Hn Hw Hlv kz. rewrite (leaves_events n n th zl t i Hw Hlv).
  assert (Ha : fst (sphere_exit_angle th t (S i)) <= PI / 2).
  { apply sphere_exit_angle_first; [exact Ht| |exact (proj1 Hw)|now apply leaves_first].
    unfold starts_in. apply outside_iff. apply (proj2 (proj2 Hlv)). lia. }
  assert (E : exit_kz (S i) t th n n = Some kz).
  { destruct (exit_kz (S i) t th n n) as [z|] eqn:E.
    - f_equal. rewrite (exit_kz_same (S i) t th n z Hn E Ha). reflexivity.
    - exfalso. unfold exit_kz in E. destruct (sphere_exit_angle th t (S i)) as [a nv] eqn:Ea. cbn [fst] in Ha.
      rewrite refraction_same in E; [discriminate|exact Hn|].
      split; [|exact Ha]. replace a with (fst (sphere_exit_angle th t (S i))) by (now rewrite Ea).
      unfold sphere_exit_angle. destruct (inf_to_large _ _ _). 
      pose proof PI_RGT_0. apply Rle_trans with 0; [lra|apply acos_nonneg]. }
  rewrite E. repeat split; intros H.
  - rewrite (proj2 (Rltb_true kz 0)) by exact H. reflexivity.
  - rewrite (proj2 (Rltb_false kz 0)) by lra. rewrite (proj2 (Rltb_true 0 kz)) by exact H. reflexivity.
  - rewrite (proj2 (Rltb_false kz 0)) by lra. rewrite (proj2 (Rltb_false 0 kz)) by lra. reflexivity.
Qed.
