(** Lemmas about the goniometer window and the start of re-run trajectories. *)
From Coq Require Import Lra Lia.
From Verif Require Import Num Spec_detector M_detector L_num L_montecarlo L_geometry L_energy.
Open Scope R_scope.

Lemma quadratic_root (q d : vec) (r2 : R) : unit d -> dot q q < r2 ->
  let b := 2 * (vx d * vx q + vy d * vy q + vz d * vz q) in
  let c := vx q ^ 2 + vy q ^ 2 + vz q ^ 2 - r2 in
  let a := vx d ^ 2 + vy d ^ 2 + vz d ^ 2 in
  let disc := b ^ 2 - 4 * a * c in
  let s := (- b + sqrt disc) / (2 * a) in
  0 < disc /\ 0 < s /\ dot (vadd q (vscale s d)) (vadd q (vscale s d)) = r2.
Proof.
  intros Hd Hq b c a disc s.
  assert (Ha : a = 1) by (unfold a, unit, dot in *; lra).
  assert (Hc : c < 0) by (unfold c, dot in *; lra).
  assert (HD : b ^ 2 < disc) by (unfold disc; rewrite Ha; nra).
  assert (H0 : 0 < disc) by (pose proof (pow2_ge_0 b); lra).
  split; [exact H0|].
  assert (Hsq : sqrt disc ^ 2 = disc) by (apply pow2_sqrt; lra).
  assert (Hp : 0 <= sqrt disc) by apply sqrt_pos.
  assert (Hb : b < sqrt disc) by nra.
  assert (Hs : s = (- b + sqrt disc) / 2) by (unfold s; rewrite Ha; f_equal; lra).
  split; [rewrite Hs; lra|].
  assert (E : s ^ 2 + b * s + c = 0).
  { rewrite Hs. assert (sqrt disc ^ 2 = b ^ 2 - 4 * c) by (rewrite Hsq; unfold disc; rewrite Ha; ring). clearbody b c disc. nra. }
  unfold dot, vadd, vscale in *. destruct q as [[q1 q2] q3], d as [[d1 d2] d3]. cbn [vx vy vz] in *.
  unfold a, b, c in *. cbn [vx vy vz] in *.
  transitivity (s ^ 2 * (d1 ^ 2 + d2 ^ 2 + d3 ^ 2) + 2 * (d1 * q1 + d2 * q2 + d3 * q3) * s + (q1 ^ 2 + q2 ^ 2 + q3 ^ 2)); [ring|].
  rewrite Ha. lra.
Qed.

Lemma gonio_window ev t theta len dist n1 n2 :
  let k := vselect (t_dir t) ev in
  let p := vselect (tl (t_pos t)) ev in
  unit k -> vz k <> 0 -> (vx k <> 0 \/ vy k <> 0) -> 0 < n1 -> 0 < n2 ->
  n1 * sqrt (1 - vz k ^ 2) <= n2 -> theta < PI / 2 ->
  forall q d, vz q = 0 -> (exists s, q = vadd p (vscale s k)) ->
  unit d -> vz d <= 0 -> vx d = n1 / n2 * vx k -> vy d = n1 / n2 * vy k ->
  dot q q < hemisphere_radius_sq len dist ->
  exists h s, 0 < s /\ h = vadd q (vscale s d) /\ dot h h = hemisphere_radius_sq len dist
    /\ (on_detector theta len dist h -> calc_index_detected ev t theta len dist n1 n2 = ev)
    /\ (~ on_detector theta len dist h -> calc_index_detected ev t theta len dist n1 n2 = 0%nat).
Proof.
  intros k p Hk Hz Ho H1 H2 Hc Ht q d Hq0 [sq Hq] Hd Hdz Hdx Hdy Hin.
  destruct (refracted_direction_spec k p n1 n2 Hk Hz Ho H1 H2 Hc) as (d' & q' & E & Ud & Dz & Dx & Dy & Qz & [s' Qs]).
  assert (Eq : q' = q).
  { assert (s' = sq).
    { subst q q'. unfold vadd, vscale in *. destruct k as [[k1 k2] k3], p as [[p1 p2] p3]. cbn [vx vy vz] in *.
      apply (Rmult_eq_reg_r k3); lra. }
    subst s'. congruence. }
  assert (Ed : d' = d).
  { destruct d as [[d1 d2] d3], d' as [[e1 e2] e3]. unfold unit, dot in *. cbn [vx vy vz] in *.
    assert (e1 = d1) by lra. assert (e2 = d2) by lra. subst e1 e2.
    rewrite H, H0 in *. clear - Hd Ud Hdz Dz. assert (S2 : e3 * e3 = d3 * d3) by lra.
    assert (Z : (e3 - d3) * (e3 + d3) = 0) by nra. apply Rmult_integral in Z.
    assert (e3 = d3) by (destruct Z; lra). now subst. }
  rewrite Eq, Ed in E. clear Qs Hq Eq Ed Ud Dz Dx Dy Qz.
  pose proof (quadratic_root q d (hemisphere_radius_sq len dist) Hd Hin) as Q. cbv zeta in Q.
  destruct Q as (D0 & S0 & Hon).
  match type of Hon with context [vscale ?x d] => set (s := x) in * end.
  exists (vadd q (vscale s d)), s. split; [exact S0|]. split; [reflexivity|]. split; [exact Hon|].
  assert (W : calc_index_detected ev t theta len dist n1 n2 =
     if (Rltb (vx (vadd q (vscale s d))) (dist * sin theta + len * cos theta / 2)
         && Rltb (dist * sin theta - len * cos theta / 2) (vx (vadd q (vscale s d))))
        && (Rltb (vy (vadd q (vscale s d))) (0 + len / 2) && Rltb (0 - len / 2) (vy (vadd q (vscale s d))))
        && Rltb (vz (vadd q (vscale s d))) 0 then ev else 0%nat).
  { unfold calc_index_detected. fold k p. rewrite E. cbv zeta.
    assert (R2 : sqrt (dist ^ 2 + (len / 2) ^ 2) ^ 2 = hemisphere_radius_sq len dist).
    { unfold hemisphere_radius_sq. apply pow2_sqrt. pose proof (pow2_ge_0 dist). pose proof (pow2_ge_0 (len / 2)). lra. }
    rewrite !R2. rewrite (proj2 (Rltb_false _ 0) (Rlt_le _ _ D0)). rewrite (proj2 (Rltb_true _ _) Ht). fold s.
    destruct q as [[q1 q2] q3], d as [[d1 d2] d3]. reflexivity. }
  rewrite W. unfold on_detector. clear W. set (h := vadd q (vscale s d)).
  split.
  - intros (A & B & Z). apply Rabs_def2 in A. apply Rabs_def2 in B.
    rewrite !(proj2 (Rltb_true _ _)) by lra. reflexivity.
  - intros N. destruct (_ && _) eqn:G; [|reflexivity]. exfalso. apply N.
    apply andb_true_iff in G as [G G5]. apply andb_true_iff in G as [G12 G34].
    apply andb_true_iff in G12 as [G1 G2]. apply andb_true_iff in G34 as [G3 G4].
    apply Rltb_true in G1, G2, G3, G4, G5. split; [apply Rabs_def1; lra|]. split; [apply Rabs_def1; lra|exact G5].
Qed.

(** Nothing is detected from behind the sample plane. *)
Lemma gonio_behind ev t theta len dist n1 n2 : 0 <= len -> PI / 2 <= theta <= PI ->
  calc_index_detected ev t theta len dist n1 n2 = 0%nat.
Proof.
  intros Hl Ht. unfold calc_index_detected. destruct (calc_refracted_direction _ _ _ _) as [[k q]|]; [|reflexivity].
  cbv zeta. destruct (Rltb _ 0); [reflexivity|].
  assert (Hc : cos theta <= 0).
  { apply cos_le_0; [lra|]. pose proof PI_RGT_0. lra. }
  assert (Hx : len * cos theta <= 0) by nra.
  match goal with |- (if (?a && ?b) && _ && _ then _ else _) = _ => destruct (a && b) eqn:E end; [|reflexivity].
  apply andb_true_iff in E as [E1 E2]. apply Rltb_true in E1, E2. lra.
Qed.

(** ** The start of a re-run trajectory *)
Lemma scatter_head k rest angs l : scatter (k :: rest) angs = Ok l -> exists l', l = k :: l'.
Proof.
  unfold scatter. destruct (scatter_loop k rest angs) as [ks|e]; cbn [bind]; [|discriminate].
  intros H. injection H as <-. eauto.
Qed.
Lemma rerun_start radius mu angs steps i t idx w t' :
  let p0 := nth (idx - 1) (t_pos t) vzero in
  let p1 := nth idx (t_pos t) vzero in
  0 < radius -> wf_len t -> (1 <= idx <= length (t_dir t))%nat ->
  vx p0 ^ 2 + vy p0 ^ 2 + (vz p0 - radius) ^ 2 < radius ^ 2 -> ~ in_sphere radius p1 ->
  Rabs (vx p1) <= 10 ^ 20 * radius -> Rabs (vy p1) <= 10 ^ 20 * radius -> Rabs (vz p1) <= 10 ^ 20 * radius ->
  rerun_traj radius mu angs steps i t idx w = Ok t' ->
  let q := nth 0 (t_pos t') vzero in
  let centre := (0, 0, radius) in
  dot (vsub q centre) (vsub q centre) = radius ^ 2
  /\ (exists s, 0 < s < 1 /\ q = vadd p0 (vscale s (vsub p1 p0)))
  /\ nth 0 (t_dir t') vzero = mirror (vscale (/ radius) (vsub q centre)) (nth (idx - 1) (t_dir t) vzero)
  /\ (forall j, (j < length (t_pos t))%nat ->
        vsub (nth (S j) (t_pos t') vzero) (nth j (t_pos t') vzero) = vscale (steps i j) (nth j (t_dir t') vzero)).
Proof.
  intros p0 p1 Hr (Wp & _ & _) Hi Hin Hout X1 Y1 Z1 H q centre.
  unfold rerun_traj in H.
  destruct (Nat.ltb_spec (length (t_dir t)) idx); [lia|].
  assert (V0 : vselect (removelast (t_pos t)) idx = p0).
  { destruct idx as [|j]; [lia|]. cbn [vselect]. unfold p0. replace (S j - 1)%nat with j by lia.
    destruct (t_pos t) as [|a l] eqn:E; [cbn in Wp; lia|].
    rewrite (@app_removelast_last _ (a :: l) vzero) at 2 by discriminate.
    rewrite app_nth1; [reflexivity|]. rewrite removelast_firstn_len, firstn_length.
    cbn [length pred] in *. lia. }
  assert (V1 : vselect (tl (t_pos t)) idx = p1).
  { destruct idx as [|j]; [lia|]. cbn [vselect]. unfold p1. destruct (t_pos t); [cbn in Wp; lia|reflexivity]. }
  assert (V2 : vselect (t_dir t) idx = nth (idx - 1) (t_dir t) vzero).
  { destruct idx as [|j]; [lia|]. cbn [vselect]. f_equal. lia. }
  rewrite V0, V1, V2 in H.
  assert (EI : inf_to_large p0 p1 radius = (p0, p1)).
  { unfold inf_to_large. pose proof pow20_big as Hb.
    destruct (coord_le (vx p0, vy p0, vz p0 - radius) radius Hr) as (A & B & C); [unfold dot; cbn [vx vy vz]; nra|].
    cbn [vx vy vz] in A, B, C.
    assert (C' : Rabs (vz p0) <= 2 * radius).
    { replace (vz p0) with (vz p0 - radius + radius) by ring. eapply Rle_trans; [apply Rabs_triang|].
      rewrite (Rabs_pos_eq radius) by lra. lra. }
    assert (100 * radius < 10 ^ 20 * radius) by (apply Rmult_lt_compat_r; lra).
    rewrite !cap_hi_lo_small, cap_hi_small by (try assumption; lra).
    destruct p0 as [[? ?] ?], p1 as [[? ?] ?]; reflexivity. }
  rewrite EI in H. cbv zeta beta iota in H.
  rewrite (proj2 (Nat.eqb_neq idx 0)) in H by lia.
  set (inter0 := find_vec_sphere_intersect _ _ _) in H.
  destruct (intersect_spec (vx p0, vy p0, vz p0 - radius) (vx p1, vy p1, vz p1 - radius) radius Hr) as [S1 (s & Hs & S2)].
  { unfold dot. cbn [vx vy vz]. nra. }
  { unfold in_sphere in Hout. unfold dot. cbn [vx vy vz]. nra. }
  fold inter0 in S1, S2.
  set (inter := (vx inter0, vy inter0, vz inter0 + radius)) in H.
  match type of H with bind (scatter (?k :: ?r) ?a) _ = _ =>
    destruct (scatter (k :: r) a) as [dirs|e] eqn:E; [|discriminate] end.
  cbn [bind] in H.
  match type of H with Ok (mk_traj ?a ?b ?c) = _ => assert (Ht' : t' = mk_traj a b c) by congruence end.
  clear H.
  assert (Ld : length dirs = length (t_pos t)).
  { pose proof E as E'. apply scatter_keeps_length in E' as (_ & El & _). rewrite repeat_length in El. lia. }
  assert (Ls : length dirs = length (map (steps i) (seq 0 (length (t_pos t))))) by (rewrite map_length, seq_length; exact Ld).
  assert (Eq : q = inter).
  { unfold q. rewrite Ht'. cbn [t_pos]. rewrite move_nth by (try exact Ls; lia).
    cbn [firstn]. unfold vtotal. cbn. unfold vadd, vzero, inter. cbn [vx vy vz]. rewrite !Rplus_0_r. reflexivity. }
  assert (Ec : vsub q centre = inter0).
  { rewrite Eq. unfold inter, centre, vsub. cbn [vx vy vz]. destruct inter0 as [[a b] c]. cbn [vx vy vz].
    f_equal; [f_equal; ring|ring]. }
  rewrite Ec. split; [exact S1|]. split; [|split].
  - exists s. split; [exact Hs|]. rewrite Eq. unfold inter. rewrite S2. unfold vadd, vscale, vsub. cbn [vx vy vz].
    f_equal. ring.
  - rewrite Ht'. cbn [t_dir]. apply scatter_head in E as [l' ->]. cbn [nth].
    rewrite reflect_mirror. f_equal. unfold inter, vscale. cbn [vx vy vz].
    f_equal; [f_equal; field; lra|field; lra].
  - intros j Hj. rewrite Ht'. cbn [t_pos t_dir].
    rewrite move_step by (try exact Ls; rewrite map_length, seq_length; exact Hj). f_equal.
    rewrite (nth_map_in _ _ _ 0%nat) by (rewrite seq_length; exact Hj). now rewrite seq_nth.
Qed.
