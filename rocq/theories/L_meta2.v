(** Symmetries of the per-trajectory numbers of [L_meta] (C132-C134). *)
From Coq Require Import Lra Lia Psatz.
From Verif Require Import L_outcomes L_sphere_exits L_meta Spec_meta.
Open Scope R_scope.

Lemma vz_nth l i : vz (nth i l vzero) = nth i (map vz l) 0.
Proof. change 0 with (vz vzero). rewrite map_nth. reflexivity. Qed.

Lemma same_heights_view P t t' : p_boundary P = film -> same_heights t t' -> film_view P t = film_view P t'.
Proof.
  intros Hb (Hp & Hd & Hw).
  assert (E : event_indices (choose_n_tir P) (p_nmedium P) (p_thickness P) (p_zlow P) film t
            = event_indices (choose_n_tir P) (p_nmedium P) (p_thickness P) (p_zlow P) film t').
  { unfold event_indices, find_valid_exits, find_valid_exits_film.
    rewrite <- (map_map vz (z_floor (p_thickness P) (p_zlow P)) (t_pos t)), Hp, map_map.
    rewrite <- (map_map vz (no_tir_film (choose_n_tir P) (p_nmedium P)) (t_dir t)), Hd, map_map. reflexivity. }
  unfold film_view, exit_angle, film_exit_angle. rewrite Hb, E, Hd, Hw, !vz_nth, Hd. reflexivity.
Qed.

Ltac triple := apply (f_equal2 pair); [apply (f_equal2 pair)|]; ring.

(** * Turning about the axis *)
Section Turn.
Variables (c s e : R).
Hypothesis Ht : is_turn c s e.
Let M := turn c s e.

Lemma turn_facts : c ^ 2 + s ^ 2 = 1 /\ e * e = 1.
Proof. destruct Ht as [H [-> | ->]]; split; auto; ring. Qed.

Lemma turn_dot a b : dot (M a) (M b) = dot a b.
Proof.
  destruct turn_facts as [H1 H2]. destruct a as [[x y] z], b as [[x' y'] z']. unfold dot, M, turn, vx, vy, vz. 
  replace ((c * x - e * s * y) * (c * x' - e * s * y') + (s * x + e * c * y) * (s * x' + e * c * y') + z * z')
    with ((c ^ 2 + s ^ 2) * x * x' + (c ^ 2 + s ^ 2) * (e * e) * y * y' + z * z') by ring.
  rewrite H1, H2. ring.
Qed.

Lemma turn_vsub a b : vsub (M a) (M b) = M (vsub a b).
Proof. destruct a as [[x y] z], b as [[x' y'] z']. unfold vsub, M, turn, vx, vy, vz. triple. Qed.

Lemma turn_zero : M vzero = vzero.
Proof. unfold M, turn, vzero, vx, vy, vz. triple. Qed.

Lemma magnitude_dot v : magnitude v = sqrt (dot v v).
Proof. unfold magnitude, dot. f_equal. rewrite !pow2_abs. ring. Qed.

Lemma turn_normalize v : normalize1 (M v) = option_map M (normalize1 v).
Proof.
  unfold normalize1, div_vec. rewrite !magnitude_dot, turn_dot.
  destruct (Reqb (sqrt (dot v v)) 0); [reflexivity|]. cbn [option_map]. f_equal.
  destruct v as [[x y] z]. unfold M, turn, vx, vy, vz. unfold Rdiv. triple.
Qed.

Lemma turn_sq v : vx (M v) ^ 2 + vy (M v) ^ 2 = vx v ^ 2 + vy v ^ 2.
Proof.
  pose proof (turn_dot v v) as H. unfold dot in H. destruct v as [[x y] z]. unfold M, turn, vx, vy, vz in *. lra.
Qed.

Lemma turn_intersect p0 p1 r : find_vec_sphere_intersect (M p0) (M p1) r = M (find_vec_sphere_intersect p0 p1 r).
Proof.
  unfold find_vec_sphere_intersect. rewrite turn_vsub, turn_normalize.
  destruct (normalize1 (vsub p1 p0)) as [k|]; cbn [option_map]; [|symmetry; apply turn_zero].
  assert (Ek : vx (M k) ^ 2 + vy (M k) ^ 2 + vz (M k) ^ 2 = vx k ^ 2 + vy k ^ 2 + vz k ^ 2) by (rewrite turn_sq; reflexivity).
  assert (Ep : vx (M p0) ^ 2 + vy (M p0) ^ 2 + vz (M p0) ^ 2 = vx p0 ^ 2 + vy p0 ^ 2 + vz p0 ^ 2) by (rewrite turn_sq; reflexivity).
  assert (Eb : vx (M k) * vx (M p0) + vy (M k) * vy (M p0) + vz (M k) * vz (M p0)
     = vx k * vx p0 + vy k * vy p0 + vz k * vz p0) by exact (turn_dot k p0).
  rewrite Ek, Ep, Eb.
  set (A := vx k ^ 2 + vy k ^ 2 + vz k ^ 2). set (B := 2 * (vx k * vx p0 + vy k * vy p0 + vz k * vz p0)).
  set (C0 := vx p0 ^ 2 + vy p0 ^ 2 + vz p0 ^ 2 - r ^ 2).
  destruct (Rltb (B ^ 2 - 4 * A * C0) 0); [symmetry; apply turn_zero|].
  set (tp := (- B + sqrt (B ^ 2 - 4 * A * C0)) / (2 * A)). set (tm := (- B - sqrt (B ^ 2 - 4 * A * C0)) / (2 * A)).
  assert (Ei : forall q, (vx (M p0) + q * vx (M k), vy (M p0) + q * vy (M k), vz (M p0) + q * vz (M k))
     = M (vx p0 + q * vx k, vy p0 + q * vy k, vz p0 + q * vz k)).
  { intros q. destruct p0 as [[x y] z], k as [[x' y'] z']. unfold M, turn, vx, vy, vz. triple. }
  rewrite !Ei.
  assert (Ed : forall q, (vx (M q) - vx (M p1)) ^ 2 + (vy (M q) - vy (M p1)) ^ 2 + (vz (M q) - vz (M p1)) ^ 2
     = (vx q - vx p1) ^ 2 + (vy q - vy p1) ^ 2 + (vz q - vz p1) ^ 2).
  { intros q. pose proof (turn_sq (vsub q p1)) as H. rewrite <- turn_vsub in H.
    replace (vz (M q)) with (vz q) by reflexivity. replace (vz (M p1)) with (vz p1) by reflexivity.
    apply (f_equal (fun x => x + (vz q - vz p1) ^ 2)). exact H. }
  cbv zeta. rewrite !Ed.
  destruct (Rltb _ _); [reflexivity|]. destruct (Rltb _ _); [reflexivity|]. symmetry; apply turn_zero.
Qed.

Lemma cap_idle r x : 0 < r -> x ^ 2 <= (10 ^ 20 * r) ^ 2 -> cap_lo r (cap_hi r x) = x.
Proof.
  intros Hr Hx. assert (H10 : 0 < 10 ^ 20) by (apply pow_lt; lra).
  assert (Hb : 0 < 10 ^ 20 * r) by (apply Rmult_lt_0_compat; lra).
  assert (Ha : - (10 ^ 20 * r) <= x <= 10 ^ 20 * r) by (split; nra).
  unfold cap_hi. rewrite (proj2 (Rltb_false _ _)) by lra.
  unfold cap_lo. rewrite (proj2 (Rltb_false _ _)) by lra. reflexivity.
Qed.

Lemma turn_near r p : vx p ^ 2 + vy p ^ 2 <= (10 ^ 20 * r) ^ 2 -> 0 < r ->
  (cap_lo r (cap_hi r (vx (M p))) = vx (M p) /\ cap_lo r (cap_hi r (vy (M p))) = vy (M p))
  /\ (cap_lo r (cap_hi r (vx p)) = vx p /\ cap_lo r (cap_hi r (vy p)) = vy p).
Proof.
  intros H Hr. pose proof (turn_sq p) as E.
  pose proof (pow2_ge_0 (vx p)). pose proof (pow2_ge_0 (vy p)). pose proof (pow2_ge_0 (vx (M p))). pose proof (pow2_ge_0 (vy (M p))).
  repeat split; apply cap_idle; lra.
Qed.

Lemma turn_cap r p0 p1 : 0 < r -> vx p0 ^ 2 + vy p0 ^ 2 <= (10 ^ 20 * r) ^ 2 -> vx p1 ^ 2 + vy p1 ^ 2 <= (10 ^ 20 * r) ^ 2 ->
  inf_to_large (M p0) (M p1) r = (M (fst (inf_to_large p0 p1 r)), M (snd (inf_to_large p0 p1 r))).
Proof.
  intros Hr H0 H1. unfold inf_to_large. cbn [fst snd].
  destruct (turn_near r p0 H0 Hr) as [[-> ->] [-> ->]]. destruct (turn_near r p1 H1 Hr) as [[-> ->] [-> ->]].
  reflexivity.
Qed.

Lemma vselect_map l i : vselect (map M l) i = M (vselect l i).
Proof. destruct i as [|i]; cbn [vselect]; [symmetry; apply turn_zero|]. rewrite <- turn_zero at 1. apply map_nth. Qed.

Lemma centred_turn r l : centred r (map M l) = map M (centred r l).
Proof.
  unfold centred. rewrite !map_map. apply map_ext. intros [[x y] z]. reflexivity.
Qed.

Lemma removelast_map {A B} (f : A -> B) l : removelast (map f l) = map f (removelast l).
Proof. induction l as [|a [|b l] IH]; [reflexivity..|]. cbn [map removelast] in *. rewrite IH. reflexivity. Qed.
Lemma tl_map {A B} (f : A -> B) l : tl (map f l) = map f (tl l).
Proof. destruct l; reflexivity. Qed.

Lemma vselect_near r l i : Forall (fun p => vx p ^ 2 + vy p ^ 2 <= (10 ^ 20 * r) ^ 2) l ->
  vx (vselect l i) ^ 2 + vy (vselect l i) ^ 2 <= (10 ^ 20 * r) ^ 2.
Proof.
  intros H. assert (Hz : vx vzero ^ 2 + vy vzero ^ 2 <= (10 ^ 20 * r) ^ 2)
    by (cbn [vzero vx vy]; replace (0 ^ 2 + 0 ^ 2) with 0 by ring; apply pow2_ge_0).
  destruct i as [|i]; [exact Hz|]. cbn [vselect].
  destruct (Nat.lt_ge_cases i (length l)) as [Hi|Hi].
  - rewrite Forall_forall in H. apply H, nth_In, Hi.
  - rewrite nth_overflow by exact Hi. exact Hz.
Qed.

Lemma in_removelast {A} (x : A) l : In x (removelast l) -> In x l.
Proof.
  induction l as [|a [|b l] IH]; [cbn; tauto..|]. cbn [removelast]. intros [H|H]; [left; exact H|right; exact (IH H)].
Qed.
Lemma in_tl {A} (x : A) l : In x (tl l) -> In x l.
Proof. destruct l; cbn; tauto. Qed.

Lemma near_centred r t : near_axis r t ->
  Forall (fun p => vx p ^ 2 + vy p ^ 2 <= (10 ^ 20 * r) ^ 2) (centred r (t_pos t)).
Proof.
  unfold near_axis, centred. rewrite !Forall_forall. intros H p Hp. rewrite in_map_iff in Hp.
  destruct Hp as (q & <- & Hq). exact (H q Hq).
Qed.

Lemma Forall_sub {A} (Q : A -> Prop) l m : (forall x, In x m -> In x l) -> Forall Q l -> Forall Q m.
Proof. rewrite !Forall_forall. auto. Qed.

Lemma turn_angle_norm k inter :
  sphere_angle_norm (option_map M k) (M inter) = (fst (sphere_angle_norm k inter), M (snd (sphere_angle_norm k inter))).
Proof.
  unfold sphere_angle_norm. rewrite turn_normalize.
  destruct (normalize1 inter) as [n|], k as [k|]; cbn [option_map fst snd].
  - pose proof (turn_dot n k) as E. unfold dot in E. rewrite E. reflexivity.
  - reflexivity.
  - rewrite turn_zero. reflexivity.
  - rewrite turn_zero. reflexivity.
Qed.

Lemma turn_exit_angle th t i : 0 < th -> near_axis (th / 2) t ->
  sphere_exit_angle th (turned c s e t) i = (fst (sphere_exit_angle th t i), M (snd (sphere_exit_angle th t i))).
Proof.
  intros Hth Hn. unfold sphere_exit_angle, turned. cbn [t_pos]. fold M. rewrite centred_turn, removelast_map, tl_map, !vselect_map.
  pose proof (near_centred _ _ Hn) as Hc.
  rewrite turn_cap;
    [|lra|apply vselect_near; eapply Forall_sub; [|exact Hc]; intros x; apply in_removelast
     |apply vselect_near; eapply Forall_sub; [|exact Hc]; intros x; apply in_tl].
  destruct (inf_to_large _ _ _) as [p0 p1]. cbn [fst snd].
  rewrite turn_vsub, turn_normalize, turn_intersect. apply turn_angle_norm.
Qed.

Lemma turn_entry_angle th t i :
  fst (sphere_entry_angle th (turned c s e t) i) = fst (sphere_entry_angle th t i).
Proof.
  unfold sphere_entry_angle, turned. cbn [t_pos t_dir]. fold M. rewrite centred_turn, !vselect_map.
  set (q := vselect (centred (th / 2) (t_pos t)) i).
  assert (E : (- vx (M q), - vy (M q), - vz (M q)) = M (- vx q, - vy q, - vz q)).
  { destruct q as [[x y] z]. unfold M, turn, vx, vy, vz. triple. }
  rewrite E. change (Some (M (vselect (t_dir t) i))) with (option_map M (Some (vselect (t_dir t) i))).
  rewrite turn_angle_norm. reflexivity.
Qed.

Lemma exit_z n k h al :
  vz (rotate_refract (vx n * h, vy n * h, vz n * h) (cross k n) k al)
  = vz n * h * (dot k k * dot n n - dot k n ^ 2 - 1) * (1 - cos al) + vz k * cos al
    + (vz n * dot k k - vz k * dot k n) * sin al.
Proof. destruct n as [[a b] z], k as [[x y] w]. unfold rotate_refract, cross, dot, vx, vy, vz. ring. Qed.

Lemma half_out a th : a * th / 2 = a * (th / 2).
Proof. unfold Rdiv. ring. Qed.

Lemma turn_exit_kz i th t n1 n2 : 0 < th -> near_axis (th / 2) t ->
  exit_kz i (turned c s e t) th n1 n2 = exit_kz i t th n1 n2.
Proof.
  intros Hth Hn. unfold exit_kz. rewrite turn_exit_angle by assumption.
  destruct (sphere_exit_angle th t i) as [a n]. cbn [fst snd].
  unfold turned. cbn [t_dir]. fold M. rewrite vselect_map.
  destruct (refraction a n1 n2) as [a2|]; [|reflexivity]. f_equal.
  rewrite !half_out, !exit_z, !turn_dot. reflexivity.
Qed.

Lemma turn_outside r p : outside r (M p) = outside r p.
Proof. unfold outside. rewrite turn_sq. reflexivity. Qed.

Lemma turn_events nt nm th zl t : 0 < th -> near_axis (th / 2) t ->
  event_indices nt nm th zl sphere (turned c s e t) = event_indices nt nm th zl sphere t.
Proof.
  intros Hth Hn. unfold event_indices, find_valid_exits, find_valid_exits_sphere.
  assert (E : map (outside (th / 2)) (tl (t_pos (turned c s e t))) = map (outside (th / 2)) (tl (t_pos t))).
  { unfold turned. cbn [t_pos]. fold M. rewrite tl_map, map_map. apply map_ext. intros p. apply turn_outside. }
  rewrite E, turn_exit_kz by assumption. reflexivity.
Qed.

Lemma turn_view P t : 0 < p_thickness P -> p_boundary P = film \/ near_axis (p_thickness P / 2) t ->
  film_view P (turned c s e t) = film_view P t.
Proof.
  intros Hth Hn.
  assert (Hz : map vz (map M (t_dir t)) = map vz (t_dir t)) by (rewrite map_map; apply map_ext; intros [[x y] z]; reflexivity).
  destruct (p_boundary P) eqn:Hb.
  - apply same_heights_view; [exact Hb|]. unfold same_heights, turned. cbn [t_pos t_dir t_w]. fold M. rewrite Hz.
    rewrite map_map. repeat split.
  - destruct Hn as [Hn|Hn]; [discriminate|]. unfold film_view, exit_angle. rewrite Hb.
    rewrite turn_events by assumption.
    rewrite !turn_exit_angle by assumption. rewrite turn_entry_angle. cbn [fst].
    unfold film_exit_angle, turned. cbn [t_dir t_w]. fold M. rewrite Hz, !vz_nth, Hz. reflexivity.
Qed.
End Turn.

(** * Another unit of length *)
Section Unit.
Variable l : R.
Hypothesis Hl : 0 < l.
Let M := vscale l.

Lemma scale_zero : M vzero = vzero.
Proof. unfold M, vscale, vzero, vx, vy, vz. triple. Qed.
Lemma scale_dot a b : dot (M a) (M b) = l ^ 2 * dot a b.
Proof. destruct a as [[x y] z], b as [[x' y'] z']. unfold dot, M, vscale, vx, vy, vz. ring. Qed.
Lemma scale_vsub a b : vsub (M a) (M b) = M (vsub a b).
Proof. destruct a as [[x y] z], b as [[x' y'] z']. unfold vsub, M, vscale, vx, vy, vz. triple. Qed.

Lemma scale_normalize v : normalize1 (M v) = normalize1 v.
Proof.
  unfold normalize1, div_vec. rewrite !magnitude_dot, scale_dot.
  assert (E : sqrt (l ^ 2 * dot v v) = l * sqrt (dot v v)).
  { rewrite sqrt_mult_alt by apply pow2_ge_0. rewrite sqrt_pow2 by lra. reflexivity. }
  rewrite E. destruct (Req_dec (sqrt (dot v v)) 0) as [H|H].
  - rewrite H, Rmult_0_r. destruct (Reqb 0 0) eqn:Eb; [reflexivity|]. apply Reqb_false in Eb. lra.
  - assert (H' : l * sqrt (dot v v) <> 0) by (apply Rmult_integral_contrapositive_currified; lra).
    rewrite (proj2 (Reqb_false _ _) H), (proj2 (Reqb_false _ _) H'). f_equal.
    destruct v as [[x y] z]. unfold M, vscale, vx, vy, vz in *.
    apply (f_equal2 pair); [apply (f_equal2 pair)|]; field; split; lra.
Qed.

Lemma scale_Rltb a b : Rltb (l * a) (l * b) = Rltb a b.
Proof.
  destruct (Rltb a b) eqn:E.
  - apply Rltb_true in E. apply Rltb_true. nra.
  - apply Rltb_false in E. apply Rltb_false. nra.
Qed.

Lemma scale_hi r x : cap_hi (l * r) (l * x) = l * cap_hi r x.
Proof.
  unfold cap_hi. replace (10 ^ 20 * (l * r)) with (l * (10 ^ 20 * r)) by ring. rewrite scale_Rltb.
  destruct (Rltb _ _); ring.
Qed.
Lemma scale_lo r x : cap_lo (l * r) (l * x) = l * cap_lo r x.
Proof.
  unfold cap_lo. replace (- (10 ^ 20) * (l * r)) with (l * (- (10 ^ 20) * r)) by ring. rewrite scale_Rltb.
  destruct (Rltb _ _); ring.
Qed.
Lemma scale_cap p0 p1 r : inf_to_large (M p0) (M p1) (l * r) = (M (fst (inf_to_large p0 p1 r)), M (snd (inf_to_large p0 p1 r))).
Proof.
  destruct p0 as [[x y] z], p1 as [[x' y'] z']. unfold inf_to_large, M, vscale. cbn [fst snd vx vy vz].
  rewrite !scale_hi, !scale_lo. reflexivity.
Qed.

Lemma scale_intersect p0 p1 r : find_vec_sphere_intersect (M p0) (M p1) (l * r) = M (find_vec_sphere_intersect p0 p1 r).
Proof.
  unfold find_vec_sphere_intersect. rewrite scale_vsub, scale_normalize.
  destruct (normalize1 (vsub p1 p0)) as [k|]; [|symmetry; apply scale_zero].
  set (A := vx k ^ 2 + vy k ^ 2 + vz k ^ 2). cbv zeta.
  set (B := 2 * (vx k * vx p0 + vy k * vy p0 + vz k * vz p0)).
  set (C0 := vx p0 ^ 2 + vy p0 ^ 2 + vz p0 ^ 2 - r ^ 2).
  replace (2 * (vx k * vx (M p0) + vy k * vy (M p0) + vz k * vz (M p0))) with (l * B)
    by (unfold B, M, vscale; cbn [vx vy vz]; ring).
  replace (vx (M p0) ^ 2 + vy (M p0) ^ 2 + vz (M p0) ^ 2 - (l * r) ^ 2) with (l ^ 2 * C0)
    by (unfold C0, M, vscale; cbn [vx vy vz]; ring).
  replace ((l * B) ^ 2 - 4 * A * (l ^ 2 * C0)) with (l ^ 2 * (B ^ 2 - 4 * A * C0)) by ring.
  set (D := B ^ 2 - 4 * A * C0).
  assert (E0 : Rltb (l ^ 2 * D) 0 = Rltb D 0).
  { assert (0 < l ^ 2) by (apply pow_lt; lra). destruct (Rltb D 0) eqn:E.
    - apply Rltb_true in E. apply Rltb_true. nra.
    - apply Rltb_false in E. apply Rltb_false. nra. }
  rewrite E0. clear E0. destruct (Rltb D 0); [symmetry; apply scale_zero|].
  assert (Es : sqrt (l ^ 2 * D) = l * sqrt D).
  { rewrite sqrt_mult_alt by apply pow2_ge_0. rewrite sqrt_pow2 by lra. reflexivity. }
  rewrite Es.
  replace ((- (l * B) + l * sqrt D) / (2 * A)) with (l * ((- B + sqrt D) / (2 * A))) by (unfold Rdiv; ring).
  replace ((- (l * B) - l * sqrt D) / (2 * A)) with (l * ((- B - sqrt D) / (2 * A))) by (unfold Rdiv; ring).
  set (tp := (- B + sqrt D) / (2 * A)). set (tm := (- B - sqrt D) / (2 * A)).
  assert (Ei : forall q, (vx (M p0) + l * q * vx k, vy (M p0) + l * q * vy k, vz (M p0) + l * q * vz k)
     = M (vx p0 + q * vx k, vy p0 + q * vy k, vz p0 + q * vz k)).
  { intros q. unfold M, vscale. cbn [vx vy vz]. triple. }
  rewrite !Ei.
  assert (Ed : forall q, (vx (M q) - vx (M p1)) ^ 2 + (vy (M q) - vy (M p1)) ^ 2 + (vz (M q) - vz (M p1)) ^ 2
     = l * (l * ((vx q - vx p1) ^ 2 + (vy q - vy p1) ^ 2 + (vz q - vz p1) ^ 2))).
  { intros q. unfold M, vscale. cbn [vx vy vz]. ring. }
  rewrite !Ed, !scale_Rltb.
  destruct (Rltb _ _); [reflexivity|]. destruct (Rltb _ _); [reflexivity|]. symmetry; apply scale_zero.
Qed.

Lemma scale_angle_norm k q : sphere_angle_norm k (M q) = sphere_angle_norm k q.
Proof. unfold sphere_angle_norm. rewrite scale_normalize. reflexivity. Qed.

Lemma scale_centred r p : centred (l * r) (map M p) = map M (centred r p).
Proof.
  unfold centred. rewrite !map_map. apply map_ext. intros [[x y] z]. unfold M, vscale, vx, vy, vz. triple.
Qed.
Lemma scale_vselect p i : vselect (map M p) i = M (vselect p i).
Proof. destruct i as [|i]; cbn [vselect]; [symmetry; apply scale_zero|]. rewrite <- scale_zero at 1. apply map_nth. Qed.

Lemma half_scale th : l * th / 2 = l * (th / 2).
Proof. field. Qed.

Lemma scale_exit_angle th t i : sphere_exit_angle (l * th) (rescaled l t) i = sphere_exit_angle th t i.
Proof.
  unfold sphere_exit_angle, rescaled. cbn [t_pos]. fold M.
  rewrite half_scale, scale_centred, removelast_map, tl_map, !scale_vselect, scale_cap.
  destruct (inf_to_large _ _ _) as [p0 p1]. cbn [fst snd].
  rewrite scale_vsub, scale_normalize, scale_intersect. apply scale_angle_norm.
Qed.

Lemma scale_entry_angle th t i : sphere_entry_angle (l * th) (rescaled l t) i = sphere_entry_angle th t i.
Proof.
  unfold sphere_entry_angle, rescaled. cbn [t_pos t_dir]. fold M. rewrite half_scale, scale_centred, scale_vselect.
  set (q := vselect (centred (th / 2) (t_pos t)) i).
  replace (- vx (M q), - vy (M q), - vz (M q)) with (M (- vx q, - vy q, - vz q))
    by (unfold M, vscale; cbn [vx vy vz]; triple).
  apply scale_angle_norm.
Qed.

Lemma scale_in_sphere r p : in_sphere (l * r) (M p) <-> in_sphere r p.
Proof.
  unfold in_sphere, M, vscale. cbn [vx vy vz]. assert (0 < l ^ 2) by (apply pow_lt; lra).
  replace ((l * vx p) ^ 2 + (l * vy p) ^ 2 + (l * vz p - l * r) ^ 2)
    with (l ^ 2 * (vx p ^ 2 + vy p ^ 2 + (vz p - r) ^ 2)) by ring.
  replace ((l * r) ^ 2) with (l ^ 2 * r ^ 2) by ring.
  split; intros H1; [apply Rmult_le_reg_l in H1; [exact H1|exact H]|apply Rmult_le_compat_l; [lra|exact H1]].
Qed.

Lemma scale_floor th zl z : zl < th -> z_floor (l * th) (l * zl) (l * z) = z_floor th zl z.
Proof.
  intros H. unfold z_floor. f_equal. replace (l * z - l * zl) with (l * (z - zl)) by ring.
  replace (l * th - l * zl) with (l * (th - zl)) by ring.
  assert (th - zl <> 0) by lra. assert (l <> 0) by lra. field. auto.
Qed.

Lemma scale_film_events nt nm th zl t : zl < th ->
  event_indices nt nm (l * th) (l * zl) film (rescaled l t) = event_indices nt nm th zl film t.
Proof.
  intros H. unfold event_indices, find_valid_exits, find_valid_exits_film, rescaled. cbn [t_pos t_dir].
  rewrite map_map.
  rewrite (map_ext (fun p => z_floor (l * th) (l * zl) (vz (vscale l p))) (fun p => z_floor th zl (vz p))); [reflexivity|].
  intros [[x y] z]. unfold vscale. cbn [vz]. apply scale_floor, H.
Qed.

Lemma scale_leaves r t i : wf_len t -> leaves_sphere r t i -> leaves_sphere (l * r) (rescaled l t) i.
Proof.
  intros (Hw & _) (Hi & Ho & Hin). unfold leaves_sphere, rescaled. cbn [t_pos t_dir]. fold M.
  assert (En : forall j, nth j (map M (t_pos t)) vzero = M (nth j (t_pos t) vzero)).
  { intros j. rewrite <- scale_zero at 1. apply map_nth. }
  split; [exact Hi|]. split.
  - rewrite En, scale_in_sphere. exact Ho.
  - intros j Hj. rewrite En, scale_in_sphere. exact (Hin j Hj).
Qed.

Lemma leave_or_stay r t : wf_len t -> in_sphere r (nth 0 (t_pos t) vzero) ->
  (forall p, In p (tl (t_pos t)) -> in_sphere r p) \/ exists i, leaves_sphere r t i.
Proof.
  intros (Hw & _) H0.
  destruct (argmax_padded_spec (map (outside r) (tl (t_pos t)))) as [[_ N]|[i [_ [[Hi Fi] Li]]]].
  - left. intros p Hp. destruct (In_nth _ _ vzero Hp) as (j & Hj & <-). specialize (N j).
    rewrite (nth_map_in _ _ j vzero) in N by exact Hj. apply outside_iff. exact N.
  - right. exists i. rewrite map_length, tl_length in Li.
    assert (Hn : forall j, (j < length (t_dir t))%nat ->
       nth j (map (outside r) (tl (t_pos t))) false = outside r (nth (S j) (t_pos t) vzero)).
    { intros j Hj. rewrite (nth_map_in _ _ j vzero) by (rewrite tl_length; lia). now rewrite nth_tl. }
    split; [lia|]. split.
    + rewrite Hn in Hi by lia. now apply outside_iff_true.
    + intros [|j] Hj; [exact H0|]. specialize (Fi j ltac:(lia)). rewrite Hn in Fi by lia. now apply outside_iff.
Qed.

Lemma scale_matched n th zl zl' t : 0 < th -> 0 < n -> wf_len t -> in_sphere (th / 2) (nth 0 (t_pos t) vzero) ->
  event_indices n n (l * th) zl' sphere (rescaled l t) = event_indices n n th zl sphere t.
Proof.
  intros Hth Hn Hw H0.
  assert (Hw' : wf_len (rescaled l t)) by (unfold wf_len, rescaled in *; cbn [t_pos t_dir t_w]; rewrite map_length; exact Hw).
  destruct (leave_or_stay _ _ Hw H0) as [Hs|[i Hi]].
  - rewrite (stays_inside _ _ _ _ t Hw Hs). rewrite (stays_inside _ _ _ _ (rescaled l t) Hw'); [reflexivity|].
    unfold rescaled. cbn [t_pos]. fold M. rewrite tl_map, half_scale. intros p Hp. rewrite in_map_iff in Hp.
    destruct Hp as (q & <- & Hq). apply scale_in_sphere, Hs, Hq.
  - pose proof (scale_leaves _ _ _ Hw Hi) as Hi'. rewrite <- half_scale in Hi'.
    pose proof (leaves_matched n th zl t i Hth Hn Hw Hi) as (A1 & A2 & A3).
    pose proof (leaves_matched n (l * th) zl' (rescaled l t) i ltac:(nra) Hn Hw' Hi') as (B1 & B2 & B3).
    change (t_dir (rescaled l t)) with (t_dir t) in *.
    destruct (Rtotal_order (vz (nth i (t_dir t) vzero)) 0) as [H|[H|H]].
    + rewrite A1, B1 by exact H. reflexivity.
    + rewrite A3, B3 by exact H. reflexivity.
    + rewrite A2, B2 by exact H. reflexivity.
Qed.

Lemma scale_view P t :
  (p_boundary P = film /\ p_zlow P < p_thickness P
   \/ p_boundary P = sphere /\ choose_n_tir P = p_nmedium P /\ 0 < p_nmedium P /\ 0 < p_thickness P
      /\ wf_len t /\ in_sphere (p_thickness P / 2) (nth 0 (t_pos t) vzero)) ->
  film_view (rescaled_params l P) (rescaled l t) = film_view P t.
Proof.
  assert (Et : choose_n_tir (rescaled_params l P) = choose_n_tir P) by reflexivity.
  intros [(Hb & Hz)|(Hb & Hn & Hm & Hth & Hw & H0)]; unfold film_view, exit_angle; rewrite Et; cbn [rescaled_params p_boundary p_nmedium p_thickness p_zlow]; rewrite Hb.
  - rewrite scale_film_events by exact Hz. reflexivity.
  - rewrite Hn, (scale_matched _ _ (p_zlow P)) by assumption. rewrite !scale_exit_angle, scale_entry_angle. reflexivity.
Qed.
End Unit.

(** * More events *)
Section More.
Variables (t t' : traj).
Hypothesis Hw : wf_len t.
Hypothesis Hc : continues t t'.

Lemma continues_wf : wf_len t'.
Proof.
  destruct Hc as (ps & ds & ws & -> & H1 & H2). destruct Hw as (A & B & C). unfold wf_len. cbn [t_pos t_dir t_w].
  rewrite !app_length. lia.
Qed.
Lemma continues_pos i : (i <= length (t_dir t))%nat -> nth i (t_pos t') vzero = nth i (t_pos t) vzero.
Proof. destruct Hc as (ps & ds & ws & -> & _). destruct Hw as (A & _). intros Hi. cbn [t_pos]. apply app_nth1. lia. Qed.
Lemma continues_dir i : (i < length (t_dir t))%nat -> nth i (t_dir t') vzero = nth i (t_dir t) vzero.
Proof. destruct Hc as (ps & ds & ws & -> & _). intros Hi. cbn [t_dir]. apply app_nth1. lia. Qed.
Lemma continues_w i : (i < length (t_dir t))%nat -> nth i (t_w t') 0 = nth i (t_w t) 0.
Proof. destruct Hc as (ps & ds & ws & -> & _). destruct Hw as (_ & B & _). intros Hi. cbn [t_w]. apply app_nth1. lia. Qed.
Lemma continues_len : (length (t_dir t) <= length (t_dir t'))%nat.
Proof. destruct Hc as (ps & ds & ws & -> & _). cbn [t_dir]. rewrite app_length. lia. Qed.

Lemma nth_pairs r (l : list vec) i : (S i < length l)%nat ->
  vselect (removelast (centred r l)) (S i) = nth i (centred r l) vzero
  /\ vselect (tl (centred r l)) (S i) = nth (S i) (centred r l) vzero.
Proof.
  intros Hi. cbn [vselect]. split; [|apply nth_tl]. apply nth_removelast. unfold centred. rewrite map_length. lia.
Qed.
Lemma nth_centred r (l : list vec) i : (i < length l)%nat ->
  nth i (centred r l) vzero = (vx (nth i l vzero), vy (nth i l vzero), vz (nth i l vzero) - r).
Proof. intros Hi. unfold centred. rewrite (nth_map_in _ _ i vzero) by exact Hi. reflexivity. Qed.

Lemma continues_exit_angle th i : (i < length (t_dir t))%nat ->
  sphere_exit_angle th t' (S i) = sphere_exit_angle th t (S i).
Proof.
  intros Hi. pose proof (proj1 Hw) as L. pose proof (proj1 continues_wf) as L'. pose proof continues_len as Hl.
  unfold sphere_exit_angle.
  destruct (nth_pairs (th / 2) (t_pos t) i ltac:(lia)) as [-> ->].
  destruct (nth_pairs (th / 2) (t_pos t') i ltac:(lia)) as [-> ->].
  rewrite !nth_centred by lia. rewrite !continues_pos by lia. reflexivity.
Qed.

Lemma continues_exit_kz th n1 n2 i : (i < length (t_dir t))%nat ->
  exit_kz (S i) t' th n1 n2 = exit_kz (S i) t th n1 n2.
Proof. intros Hi. unfold exit_kz. rewrite continues_exit_angle by exact Hi. cbn [vselect]. rewrite continues_dir by exact Hi. reflexivity. Qed.

Lemma argmax_same (l m : list bool) i : first_true l i -> (i < length l)%nat -> argmax_padded (l ++ m) = argmax_padded l.
Proof.
  intros [Hi Fi] Hlen.
  destruct (argmax_padded_spec l) as [[_ N]|[j [-> [[Hj Fj] Lj]]]]; [rewrite N in Hi; discriminate|].
  destruct (argmax_padded_spec (l ++ m)) as [[_ N]|[k [-> [[Hk Fk] Lk]]]].
  - specialize (N j). rewrite app_nth1 in N by exact Lj. congruence.
  - f_equal. destruct (Nat.lt_trichotomy k j) as [H|[H|H]]; [|exact H|].
    + specialize (Fj k H). rewrite app_nth1 in Hk by lia. congruence.
    + specialize (Fk j H). rewrite app_nth1 in Fk by lia. congruence.
Qed.

Lemma first_true_unique l i j : first_true l i -> first_true l j -> i = j.
Proof.
  intros [A B] [C D]. destruct (Nat.lt_trichotomy i j) as [H|[H|H]]; [rewrite D in A by exact H; discriminate|exact H|rewrite B in C by exact H; discriminate].
Qed.

Lemma continues_flags ns nm th zl b ps ng ti ps' ng' ti' k :
  find_valid_exits ns nm th zl b t = (ps, ng, ti) -> find_valid_exits ns nm th zl b t' = (ps', ng', ti') ->
  (k < length (t_dir t))%nat -> nth k ps false || nth k ng false = true ->
  forall i, (i < length (t_dir t))%nat -> nth i ps' false = nth i ps false /\ nth i ng' false = nth i ng false.
Proof.
  intros E E' Hk Hor i Hi. pose proof continues_len as Hl. pose proof continues_wf as Hw'. destruct b; cbn [find_valid_exits] in E, E'.
  - pose proof (film_exits_nth ns nm th zl t Hw) as F. rewrite E in F. destruct F as (_ & _ & _ & F).
    pose proof (film_exits_nth ns nm th zl t' Hw') as F'. rewrite E' in F'. destruct F' as (_ & _ & _ & F').
    specialize (F i Hi). specialize (F' i ltac:(lia)). rewrite !continues_pos, continues_dir in F' by lia.
    rewrite <- F in F'. inversion F'. auto.
  - unfold find_valid_exits_sphere in E, E'.
    assert (Ep : exists m, map (outside (th / 2)) (tl (t_pos t')) = map (outside (th / 2)) (tl (t_pos t)) ++ m).
    { destruct Hc as (qs & ds & ws & -> & _). cbn [t_pos]. pose proof (proj1 Hw) as L.
      destruct (t_pos t) as [|p l]; [discriminate|]. cbn [tl app]. rewrite map_app. eexists. reflexivity. }
    destruct Ep as [m Em]. rewrite Em in E'.
    set (pot := map (outside (th / 2)) (tl (t_pos t))) in *.
    assert (Lp : length pot = length (t_dir t)) by (unfold pot; rewrite map_length, tl_length; destruct Hw; lia).
    assert (Hpk : exists j, first_true pot j /\ (j < length pot)%nat).
    { destruct (argmax_padded_spec pot) as [[_ N]|[j [_ [Fj Lj]]]]; [|eauto]. exfalso.
      assert (Hz : forall f : bool -> bool, f false = false -> nth k (map f pot) false = false).
      { intros f Hf. rewrite (nth_map_in f pot k false) by lia. rewrite (N k). exact Hf. }
      inversion E; subst. rewrite !Hz in Hor by reflexivity. discriminate. }
    destruct Hpk as (j & Fj & Lj).
    assert (Ea : argmax_padded pot = S j).
    { destruct (argmax_padded_spec pot) as [[_ N]|[j' [-> [Fj' Lj']]]]; [destruct Fj as [X _]; rewrite N in X; discriminate|].
      f_equal. eapply first_true_unique; eauto. }
    rewrite (argmax_same pot m j Fj Lj), Ea, continues_exit_kz in E' by lia. rewrite Ea in E.
    assert (Hn : forall f : bool -> bool, nth i (map f (pot ++ m)) false = nth i (map f pot) false).
    { intros f. rewrite map_app. apply app_nth1. rewrite map_length. lia. }
    inversion E; subst. inversion E'; subst. rewrite !Hn. auto.
Qed.

Lemma continues_events ns nm th zl b :
  let ev := event_indices ns nm th zl b t in let ev' := event_indices ns nm th zl b t' in
  (0 < i_refl ev + i_trans ev)%nat ->
  i_refl ev' = i_refl ev /\ i_trans ev' = i_trans ev /\ i_stuck ev = 0%nat /\ i_stuck ev' = 0%nat
  /\ (i_refl ev <= length (t_dir t))%nat /\ (i_trans ev <= length (t_dir t))%nat.
Proof.
  intros ev ev' Hpos.
  destruct (find_valid_exits ns nm th zl b t) as [[ps ng] ti] eqn:E.
  destruct (find_valid_exits ns nm th zl b t') as [[ps' ng'] ti'] eqn:E'.
  destruct (exits_lengths _ _ _ _ _ _ _ _ _ Hw E) as (L1 & L2 & _).
  destruct (exits_lengths _ _ _ _ _ _ _ _ _ continues_wf E') as (L1' & L2' & _). pose proof continues_len as Hl.
  destruct (trajectory_outcome _ _ _ _ _ _ _ _ _ Hw E) as (r & tt & s & Ev & O).
  destruct (trajectory_outcome _ _ _ _ _ _ _ _ _ continues_wf E') as (r' & tt' & s' & Ev' & O').
  unfold ev, ev' in *. rewrite Ev in *. rewrite Ev'. cbn [i_refl i_trans i_stuck] in *. clear Ev Ev' ev ev'.
  assert (Hk : exists k, (k < length (t_dir t))%nat /\ first_true (map2 orb ng ps) k
     /\ ((nth k ng false = true /\ r = S k /\ tt = 0%nat) \/ (nth k ps false = true /\ r = 0%nat /\ tt = S k)) /\ s = 0%nat).
  { destruct O as [(_ & _ & -> & -> & _)|[(k & F & N & Lk & -> & -> & ->)|(k & F & N & Lk & -> & -> & ->)]]; [lia| |];
    (exists k; split; [exact Lk|]; split; [exact F|]; split; [auto|reflexivity]). }
  destruct Hk as (k & Lk & F & Hcase & ->).
  assert (Hor : nth k ps false || nth k ng false = true).
  { destruct Hcase as [[-> _]|[-> _]]; [apply orb_true_r|reflexivity]. }
  pose proof (continues_flags _ _ _ _ _ _ _ _ _ _ _ k E E' Lk Hor) as Hf.
  assert (F' : first_true (map2 orb ng' ps') k).
  { destruct F as [A B]. split.
    - rewrite nth_map2_bool by (auto; lia). destruct (Hf k Lk) as [-> ->].
      rewrite nth_map2_bool in A by (auto; lia). exact A.
    - intros i Hi. specialize (B i Hi). rewrite nth_map2_bool in * by (auto; lia). destruct (Hf i ltac:(lia)) as [-> ->]. exact B. }
  destruct (Hf k Lk) as [Hp Hn].
  pose proof (exits_exclusive _ _ _ _ _ _ _ _ _ k Hw E) as Hx.
  destruct O' as [(N1 & N2 & _)|[(k' & F2 & N & Lk' & -> & -> & ->)|(k' & F2 & N & Lk' & -> & -> & ->)]].
  - rewrite <- Hp, <- Hn, N1, N2 in Hor. discriminate.
  - pose proof (first_true_unique _ _ _ F' F2) as <-. rewrite Hn in N.
    destruct Hcase as [(_ & -> & ->)|(Y & _ & _)]; [lia|]. rewrite N, Y in Hx. discriminate.
  - pose proof (first_true_unique _ _ _ F' F2) as <-. rewrite Hp in N.
    destruct Hcase as [(Y & _ & _)|(_ & -> & ->)]; [|lia]. rewrite N, Y in Hx. discriminate.
Qed.

Lemma continues_view P :
  (let ev := event_indices (choose_n_tir P) (p_nmedium P) (p_thickness P) (p_zlow P) (p_boundary P) t in
   0 < i_refl ev + i_trans ev)%nat ->
  film_view P t' = film_view P t.
Proof.
  intros Hpos. destruct (continues_events _ _ _ _ _ Hpos) as (E1 & E2 & E3 & E4 & L1 & L2).
  pose proof (proj2 (proj2 Hw)) as Hd. pose proof continues_len as Hlen.
  assert (Hsel : forall i, (i <= length (t_dir t))%nat -> select_col (t_w t') i = select_col (t_w t) i).
  { intros [|i] Hi; [reflexivity|]. cbn [select_col]. apply continues_w. lia. }
  assert (Hfa : forall i, (i <= length (t_dir t))%nat -> film_exit_angle t' i = film_exit_angle t i).
  { intros [|i] Hi; [reflexivity|]. unfold film_exit_angle. cbn [select_col]. rewrite <- !vz_nth, continues_dir by lia. reflexivity. }
  assert (Hea : forall i, (i <= length (t_dir t))%nat -> exit_angle P t' i = exit_angle P t i).
  { intros i Hi. unfold exit_angle. destruct (p_boundary P); [now apply Hfa|].
    destruct i as [|i]; [reflexivity|]. rewrite continues_exit_angle by lia. reflexivity. }
  unfold film_view. rewrite E1, E2, E3, E4, !Hsel, !Hea, (Hfa 1%nat), continues_dir by lia. f_equal.
  destruct (p_boundary P); [reflexivity|]. unfold sphere_entry_angle. cbn [vselect].
  rewrite continues_dir by lia. pose proof (proj1 Hw). pose proof (proj1 continues_wf).
  rewrite !nth_centred by lia. rewrite continues_pos by lia. reflexivity.
Qed.
End More.
