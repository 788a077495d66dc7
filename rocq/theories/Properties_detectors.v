(** C175: several goniometer detectors. *)
From Coq Require Import Lra Lia Psatz Reals List Bool.
From Verif Require Import Num Spec Spec_detector M_init M_detector L_num Properties_detector.
Import ListNotations.
Open Scope R_scope.

(** Half of the angle that a detector of size len covers, seen from distance dist. *)
Definition half_angle (len dist : R) : R := atan (len / (2 * dist)).

Lemma half_range len dist : 0 < len -> 0 < dist -> 0 < half_angle len dist < PI / 2.
Proof.
  intros H1 H2. unfold half_angle. split.
  - rewrite <- atan_0. apply atan_increasing. apply Rdiv_lt_0_compat; lra.
  - apply atan_bound.
Qed.
Lemma edges len dist : 0 < len -> 0 < dist -> let r := sqrt (hemisphere_radius_sq len dist) in
  0 < r /\ r * cos (half_angle len dist) = dist /\ r * sin (half_angle len dist) = len / 2.
Proof.
  intros H1 H2 r. unfold hemisphere_radius_sq in r. set (t := len / (2 * dist)).
  assert (Hr : 0 < r) by (unfold r; apply sqrt_lt_R0; nra). split; [exact Hr|].
  assert (E : r = dist * sqrt (1 + t²)).
  { unfold r. rewrite <- (sqrt_pow2 dist) at 2 by lra. rewrite <- sqrt_mult_alt by apply pow2_ge_0. f_equal. unfold t, Rsqr. field. lra. }
  pose proof (Rle_0_sqr t) as T. assert (Q : 0 < sqrt (1 + t²)) by (apply sqrt_lt_R0; lra).
  unfold half_angle. fold t. rewrite cos_atan, sin_atan, E. split; [field; lra|]. replace (len / 2) with (dist * t) by (unfold t; field; lra). field. lra.
Qed.
Lemma window_edges theta len dist : 0 < len -> 0 < dist -> let r := sqrt (hemisphere_radius_sq len dist) in
  dist * sin theta + len * cos theta / 2 = r * sin (theta + half_angle len dist) /\ dist * sin theta - len * cos theta / 2 = r * sin (theta - half_angle len dist).
Proof.
  intros H1 H2 r. destruct (edges len dist H1 H2) as (Hr & Ec & Es). fold r in Hr, Ec, Es. rewrite sin_plus, sin_minus. split.
  - replace (r * (sin theta * cos (half_angle len dist) + cos theta * sin (half_angle len dist))) with (sin theta * (r * cos (half_angle len dist)) + cos theta * (r * sin (half_angle len dist))) by ring. rewrite Ec, Es. field.
  - replace (r * (sin theta * cos (half_angle len dist) - cos theta * sin (half_angle len dist))) with (sin theta * (r * cos (half_angle len dist)) - cos theta * (r * sin (half_angle len dist))) by ring. rewrite Ec, Es. field.
Qed.

(** C175.  A detector at angle theta covers exactly the directions between
    theta - half_angle and theta + half_angle, within half its size above and below
    the plane of the goniometer ([on_detector]: see C101). *)
Theorem C175_window : forall theta len dist h, 0 < len -> 0 < dist -> let r := sqrt (hemisphere_radius_sq len dist) in
  on_detector theta len dist h <->
  r * sin (theta - half_angle len dist) < vx h < r * sin (theta + half_angle len dist) /\ Rabs (vy h) < len / 2 /\ vz h < 0.
Proof.
  intros th len dist h H1 H2 r. destruct (window_edges th len dist H1 H2) as [E1 E2]. fold r in E1, E2. unfold on_detector. rewrite <- E1, <- E2. split.
  - intros (A & B & C). apply Rabs_def2 in A. repeat split; try assumption; lra.
  - intros (A & B & C). split; [apply Rabs_def1; lra|]. split; assumption.
Qed.
Print Assumptions C175_window.

(** What the code detects: with the conditions of C101 (an oblique ray below the
    critical angle, leaving the film's surface at q in direction d), exactly the
    rays that meet the hemisphere inside that window. *)
Theorem C175_detects : forall ev t theta len dist n1 n2, 0 < len -> 0 < dist ->
  let k := vselect (t_dir t) ev in let p := vselect (tl (t_pos t)) ev in let r := sqrt (hemisphere_radius_sq len dist) in
  unit k -> vz k <> 0 -> (vx k <> 0 \/ vy k <> 0) -> 0 < n1 -> 0 < n2 -> n1 * sqrt (1 - vz k ^ 2) <= n2 -> theta < PI / 2 ->
  forall q d, vz q = 0 -> (exists s, q = vadd p (vscale s k)) -> unit d -> vz d <= 0 -> vx d = n1 / n2 * vx k -> vy d = n1 / n2 * vy k -> dot q q < r ^ 2 ->
  exists h s, 0 < s /\ h = vadd q (vscale s d) /\ dot h h = r ^ 2
    /\ let seen := r * sin (theta - half_angle len dist) < vx h < r * sin (theta + half_angle len dist) /\ Rabs (vy h) < len / 2 /\ vz h < 0 in
       (seen -> calc_index_detected ev t theta len dist n1 n2 = ev) /\ (~ seen -> calc_index_detected ev t theta len dist n1 n2 = 0%nat).
Proof.
  intros ev t th len dist n1 n2 Hl Hd k p r Hk Hz Ho H1 H2 H3 Hth q d Q1 Q2 D1 D2 D3 D4 Q3.
  assert (E : r ^ 2 = hemisphere_radius_sq len dist) by (unfold r; apply pow2_sqrt; unfold hemisphere_radius_sq; nra).
  rewrite E in *. destruct (C101_goniometer_window ev t th len dist n1 n2 Hk Hz Ho H1 H2 H3 Hth q d Q1 Q2 D1 D2 D3 D4 Q3) as (h & s & A & B & C & Y & N).
  exists h, s. split; [exact A|]. split; [exact B|]. split; [exact C|]. intros seen. pose proof (C175_window th len dist h Hl Hd) as W. cbv zeta in W. fold r in W. fold seen in W.
  split; [intros X; apply Y, W, X|intros X; apply N; intros X'; apply X, W, X'].
Qed.
Print Assumptions C175_detects.

(** Where the code puts the light on the hemisphere does not depend on the detector. *)
Lemma point_of ev t len dist n1 n2 : 
  (forall theta, theta < PI / 2 -> calc_index_detected ev t theta len dist n1 n2 = 0%nat)
  \/ exists h, forall theta, theta < PI / 2 ->
    (on_detector theta len dist h -> calc_index_detected ev t theta len dist n1 n2 = ev)
    /\ (~ on_detector theta len dist h -> calc_index_detected ev t theta len dist n1 n2 = 0%nat).
Proof.
  unfold calc_index_detected. destruct (calc_refracted_direction _ _ n1 n2) as [[k q]|]; [|left; reflexivity]. cbv zeta.
  match goal with |- context [Rltb ?D 0] => destruct (Rltb D 0); [left; reflexivity|]; set (disc := D) end.
  set (a := vx k ^ 2 + vy k ^ 2 + vz k ^ 2). set (b := 2 * (vx k * vx q + vy k * vy q + vz k * vz q)). set (tt := (- b + sqrt disc) / (2 * a)).
  right. exists (vx q + tt * vx k, vy q + tt * vy k, vz q + tt * vz k). intros th Hth. rewrite (proj2 (Rltb_true th (PI / 2)) Hth). fold tt.
  set (X := vx q + tt * vx k). set (Y := vy q + tt * vy k). set (Z := vz q + tt * vz k).
  unfold on_detector. change (vx (X, Y, Z)) with X. change (vy (X, Y, Z)) with Y. change (vz (X, Y, Z)) with Z.
  set (c := dist * sin th). set (d := len * cos th). split.
  - intros (A & B & C). apply Rabs_def2 in A, B. rewrite !(proj2 (Rltb_true _ _)) by lra. reflexivity.
  - intros N. destruct (Rltb X (c + d / 2)) eqn:E1; [|reflexivity]. destruct (Rltb (c - d / 2) X) eqn:E2; [|reflexivity].
    destruct (Rltb Y (0 + len / 2)) eqn:E3; [|reflexivity]. destruct (Rltb (0 - len / 2) Y) eqn:E4; [|reflexivity]. destruct (Rltb Z 0) eqn:E5; [|reflexivity].
    exfalso. apply N. apply Rltb_true in E1, E2, E3, E4, E5. split; [apply Rabs_def1; lra|]. split; [apply Rabs_def1; lra|exact E5].
Qed.

(** Detectors in a row: the angles increase, by at least the angle a detector
    covers, and no detector reaches past the plane of the sample. *)
Fixpoint in_a_row (len dist : R) (thetas : list R) : Prop :=
  match thetas with
  | [] => True
  | a :: rest => - (PI / 2) <= a - half_angle len dist /\ a + half_angle len dist <= PI / 2
      /\ (forall b, In b rest -> a + 2 * half_angle len dist <= b) /\ in_a_row len dist rest
  end.
Lemma row_each len dist thetas : in_a_row len dist thetas -> forall a, In a thetas -> - (PI / 2) <= a - half_angle len dist /\ a + half_angle len dist <= PI / 2.
Proof. induction thetas as [|b l IH]; intros H a Ha; [destruct Ha|]. cbn [in_a_row] in H. destruct H as (A & B & _ & D). destruct Ha as [<-|Ha]; [tauto|]. now apply IH. Qed.
Lemma apart len dist a b h : 0 < len -> 0 < dist -> - (PI / 2) <= a - half_angle len dist -> b + half_angle len dist <= PI / 2 -> a + 2 * half_angle len dist <= b ->
  on_detector a len dist h -> on_detector b len dist h -> False.
Proof.
  intros H1 H2 Ha Hb Hab A B. apply C175_window in A, B; try assumption. pose proof (half_range len dist H1 H2) as Hd. destruct (edges len dist H1 H2) as (Hr & _).
  set (r := sqrt (hemisphere_radius_sq len dist)) in *. set (d := half_angle len dist) in *.
  assert (S : sin (a + d) <= sin (b - d)) by (apply sin_incr_1; lra). apply (Rmult_le_compat_l r) in S; lra.
Qed.

(** No trajectory is counted twice: the light that all of them detect is at most
    what the trajectories carry. *)
Theorem C175_once : forall len dist thetas, 0 < len -> 0 < dist -> in_a_row len dist thetas ->
  forall ev t n1 n2 w, (1 <= ev)%nat -> 0 <= w ->
  total (map (fun th => if Nat.eqb (calc_index_detected ev t th len dist n1 n2) 0 then 0 else w) thetas) <= w.
Proof.
  intros len dist thetas H1 H2 HR ev t n1 n2 w Hev Hw. pose proof (half_range len dist H1 H2) as Hd. destruct (point_of ev t len dist n1 n2) as [K|[h K]].
  - assert (Z : forall l, (forall a, In a l -> a < PI / 2) -> total (map (fun th => if Nat.eqb (calc_index_detected ev t th len dist n1 n2) 0 then 0 else w) l) = 0).
    { induction l as [|a l IH]; intros Hl; [reflexivity|]. cbn [map total]. rewrite (K a) by (apply Hl; now left). cbn [Nat.eqb]. rewrite IH by (intros; apply Hl; now right). ring. }
    rewrite Z; [exact Hw|]. intros a Ha. destruct (row_each len dist thetas HR a Ha). lra.
  - assert (Z : forall l, in_a_row len dist l -> (forall a, In a l -> ~ on_detector a len dist h) -> total (map (fun th => if Nat.eqb (calc_index_detected ev t th len dist n1 n2) 0 then 0 else w) l) = 0).
    { induction l as [|a l IH]; intros Hl Hn; [reflexivity|]. pose proof (row_each len dist (a :: l) Hl a (or_introl eq_refl)). cbn [in_a_row] in Hl. destruct Hl as (_ & _ & _ & Hl).
      cbn [map total]. rewrite (proj2 (K a ltac:(lra)) (Hn a (or_introl eq_refl))). cbn [Nat.eqb]. rewrite IH; [ring|exact Hl|]. intros b Hb. apply Hn. now right. }
    induction thetas as [|a l IH]; [exact Hw|]. pose proof (row_each len dist (a :: l) HR a (or_introl eq_refl)) as Ra. pose proof HR as HR'. cbn [in_a_row] in HR'. destruct HR' as (A1 & A2 & A3 & A4).
    specialize (IH A4). cbn [map total].
    assert (D : on_detector a len dist h \/ ~ on_detector a len dist h).
    { unfold on_detector. destruct (Rlt_dec (Rabs (vx h - dist * sin a)) (len * cos a / 2)) as [X|X]; [|right; intros (Y & _); contradiction].
      destruct (Rlt_dec (Rabs (vy h)) (len / 2)) as [X'|X']; [|right; intros (_ & Y & _); contradiction]. destruct (Rlt_dec (vz h) 0) as [X''|X'']; [left; auto|right; intros (_ & _ & Y); contradiction]. }
    destruct D as [D|D].
    + rewrite (proj1 (K a ltac:(lra)) D). destruct ev as [|ev]; [lia|]. cbn [Nat.eqb]. rewrite Z; [lra|exact A4|]. intros b Hb Db.
      destruct (row_each len dist l A4 b Hb). apply (apart len dist a b h); auto.
    + rewrite (proj2 (K a ltac:(lra)) D). cbn [Nat.eqb]. lra.
Qed.
Print Assumptions C175_once.

(** Side by side, two detectors leave no gap but the line where they touch. *)
Theorem C175_no_gap : forall a len dist h, 0 < len -> 0 < dist -> let b := a + 2 * half_angle len dist in
  let r := sqrt (hemisphere_radius_sq len dist) in
  r * sin (a - half_angle len dist) < vx h < r * sin (b + half_angle len dist) -> Rabs (vy h) < len / 2 -> vz h < 0 ->
  on_detector a len dist h \/ on_detector b len dist h \/ vx h = r * sin (a + half_angle len dist).
Proof.
  intros a len dist h H1 H2 b r Hx Hy Hz. rewrite (C175_window a len dist h H1 H2), (C175_window b len dist h H1 H2). fold r. unfold b in *.
  replace (a + 2 * half_angle len dist - half_angle len dist) with (a + half_angle len dist) by ring.
  destruct (Rtotal_order (vx h) (r * sin (a + half_angle len dist))) as [L|[L|L]]; [left|right; right; exact L|right; left]; repeat split; try assumption; lra.
Qed.
Print Assumptions C175_no_gap.

(** ** Mirror images *)
Definition flip (sx sy : R) (v : vec) : vec := (sx * vx v, sy * vy v, vz v).
Definition flip_traj (sx sy : R) (t : traj) : traj := mk_traj (map (flip sx sy) (t_pos t)) (map (flip sx sy) (t_dir t)) (t_w t).
Lemma flip_select sx sy l ev : vselect (map (flip sx sy) l) ev = flip sx sy (vselect l ev).
Proof.
  assert (Z : flip sx sy vzero = vzero) by (unfold flip, vzero; cbn; now rewrite !Rmult_0_r).
  unfold vselect. destruct ev as [|ev]; [now rewrite Z|]. rewrite <- Z at 1. now rewrite map_nth.
Qed.
Lemma sign_abs s x : s = 1 \/ s = -1 -> Rabs (s * x) = Rabs x.
Proof. intros [-> | ->]; [now rewrite Rmult_1_l|]. replace (-1 * x) with (- x) by ring. apply Rabs_Ropp. Qed.
Lemma flip_refracted sx sy k p n1 n2 : sx = 1 \/ sx = -1 -> sy = 1 \/ sy = -1 ->
  calc_refracted_direction (flip sx sy k) (flip sx sy p) n1 n2 = option_map (fun kq => (flip sx sy (fst kq), flip sx sy (snd kq))) (calc_refracted_direction k p n1 n2).
Proof.
  intros Hx Hy. assert (Sx : sx * sx = 1) by (destruct Hx as [-> | ->]; ring). assert (Sy : sy * sy = 1) by (destruct Hy as [-> | ->]; ring).
  destruct k as [[kx ky] kz]. destruct p as [[px py] pz]. unfold calc_refracted_direction, flip. cbn [vx vy vz fst snd].
  destruct (Reqb kz 0) eqn:Ez; [reflexivity|]. unfold normalize1, div_vec, magnitude. cbn [vx vy vz fst snd].
  replace (Rabs (- (sy * ky))) with (Rabs (- ky)) by (rewrite !Rabs_Ropp, (sign_abs sy) by exact Hy; reflexivity).
  rewrite (sign_abs sx kx Hx). set (m := sqrt _). destruct (Reqb m 0) eqn:Em; [reflexivity|]. destruct (refraction _ n1 n2) as [th|]; [|reflexivity].
  cbn [option_map fst snd]. unfold rotate_refract. cbn [vx vy vz fst snd]. set (ps := if Rltb 0 kz then - kz else kz). set (al := - (th - acos (Rabs ps))).
  assert (Hm : m <> 0) by (apply Reqb_false; exact Em). assert (Hz : kz <> 0) by (apply Reqb_false; exact Ez). f_equal. f_equal.
  - destruct Hx as [-> | ->]; destruct Hy as [-> | ->]; f_equal; [f_equal| |f_equal| |f_equal| |f_equal|]; try field; auto.
  - f_equal. f_equal; field; exact Hz.
Qed.

(** A detector on the other side counts the mirror images, and mirroring in the
    plane of the goniometer changes nothing. *)
Theorem C175_mirror : forall ev t theta len dist n1 n2, - (PI / 2) < theta < PI / 2 ->
  calc_index_detected ev (flip_traj (-1) 1 t) (- theta) len dist n1 n2 = calc_index_detected ev t theta len dist n1 n2
  /\ calc_index_detected ev (flip_traj 1 (-1) t) theta len dist n1 n2 = calc_index_detected ev t theta len dist n1 n2.
Proof.
  assert (G : forall sx sy, sx = 1 \/ sx = -1 -> sy = 1 \/ sy = -1 -> forall ev t th len dist n1 n2, - (PI / 2) < th < PI / 2 ->
    calc_index_detected ev (flip_traj sx sy t) (sx * th) len dist n1 n2 = calc_index_detected ev t th len dist n1 n2).
  { intros sx sy Hx Hy ev t th len dist n1 n2 Hth. unfold calc_index_detected. cbn [flip_traj t_dir t_pos].
    replace (tl (map (flip sx sy) (t_pos t))) with (map (flip sx sy) (tl (t_pos t))) by (now destruct (t_pos t)). rewrite !flip_select, (flip_refracted sx sy) by assumption.
    destruct (calc_refracted_direction _ _ n1 n2) as [[[[kx ky] kz] [[qx qy] qz]]|]; [|reflexivity]. cbn [option_map fst snd flip]. unfold flip. cbn [vx vy vz fst snd].
    rewrite !(proj2 (Rltb_true _ (PI / 2))) by (destruct Hx as [-> | ->]; lra).
    assert (C : cos (sx * th) = cos th) by (destruct Hx as [-> | ->]; [now rewrite Rmult_1_l|]; replace (-1 * th) with (- th) by ring; apply cos_neg).
    assert (N : sin (sx * th) = sx * sin th) by (destruct Hx as [-> | ->]; [now rewrite !Rmult_1_l|]; replace (-1 * th) with (- th) by ring; rewrite sin_neg; ring).
    rewrite C, N. replace ((sx * kx) ^ 2) with (kx ^ 2) by (destruct Hx as [-> | ->]; ring). replace ((sy * ky) ^ 2) with (ky ^ 2) by (destruct Hy as [-> | ->]; ring).
    replace ((sx * qx) ^ 2) with (qx ^ 2) by (destruct Hx as [-> | ->]; ring). replace ((sy * qy) ^ 2) with (qy ^ 2) by (destruct Hy as [-> | ->]; ring).
    replace (sx * kx * (sx * qx)) with (kx * qx) by (destruct Hx as [-> | ->]; ring). replace (sy * ky * (sy * qy)) with (ky * qy) by (destruct Hy as [-> | ->]; ring).
    match goal with |- context [Rltb ?D 0] => destruct (Rltb D 0); [reflexivity|] end.
    match goal with |- context [?t * (sx * kx)] => set (tt := t) end.
    replace (sx * qx + tt * (sx * kx)) with (sx * (qx + tt * kx)) by ring. replace (sy * qy + tt * (sy * ky)) with (sy * (qy + tt * ky)) by ring.
    set (X := qx + tt * kx). set (Y := qy + tt * ky). set (c := dist * sin th). set (d := len * cos th / 2). replace (dist * (sx * sin th)) with (sx * c) by (unfold c; ring).
    assert (EX : Rltb (sx * X) (sx * c + d) && Rltb (sx * c - d) (sx * X) = Rltb X (c + d) && Rltb (c - d) X).
    { destruct Hx as [-> | ->]; [now rewrite !Rmult_1_l|]. rewrite andb_comm. f_equal; apply eq_true_iff_eq; rewrite !Rltb_true; split; lra. }
    assert (EY : Rltb (sy * Y) (0 + len / 2) && Rltb (0 - len / 2) (sy * Y) = Rltb Y (0 + len / 2) && Rltb (0 - len / 2) Y).
    { destruct Hy as [-> | ->]; [now rewrite !Rmult_1_l|]. rewrite andb_comm. f_equal; apply eq_true_iff_eq; rewrite !Rltb_true; split; lra. }
    rewrite EX, EY. reflexivity. }
  intros ev t th len dist n1 n2 Hth. split.
  - replace (- th) with (-1 * th) by ring. apply G; auto.
  - rewrite <- (G 1 (-1) ltac:(auto) ltac:(auto) ev t th len dist n1 n2 Hth). now rewrite Rmult_1_l.
Qed.
Print Assumptions C175_mirror.

(** Two detectors of 60 degrees each, side by side about the normal. *)
Example C175_case : let len := 2 * sqrt 3 / 3 in 0 < len /\ half_angle len 1 = PI / 6 /\ in_a_row len 1 [- (PI / 6); PI / 6].
Proof.
  intros len. assert (S : 0 < sqrt 3) by (apply sqrt_lt_R0; lra). assert (SS : sqrt 3 * sqrt 3 = 3) by (apply sqrt_sqrt; lra). pose proof PI_RGT_0.
  assert (E : half_angle len 1 = PI / 6).
  { unfold half_angle. replace (len / (2 * 1)) with (tan (PI / 6)); [apply atan_tan; lra|]. rewrite tan_PI6. unfold len. field_simplify_eq; [|lra]. simpl. lra. }
  split; [unfold len; lra|]. split; [exact E|]. cbn [in_a_row]. rewrite E.
  split; [lra|]. split; [lra|]. split; [intros b Hb; destruct Hb as [<-|[]]; lra|]. split; [lra|]. split; [lra|]. split; [intros b []|exact Logic.I].
Qed.
