(** Proofs about initial conditions, phase functions and roughness
    (C18-C21, C63). *)
From Coq Require Import Lra Lia Psatz.
From Verif Require Export L_montecarlo.
Open Scope R_scope.

(* ------------------------------------------------------------------ *)
(** * Normalised distributions *)

Lemma normalise_somes l : total l <> 0 ->
  normalise l = map Some (map (fun x => x / total l) l).
Proof.
  intros H. unfold normalise. rewrite Rsum_total, map_map. cbv zeta.
  replace (Reqb (total l) 0) with false by (symmetry; apply Reqb_false; exact H). reflexivity.
Qed.

Lemma total_div l c : c <> 0 -> total (map (fun x => x / c) l) = total l / c.
Proof.
  intros Hc. rewrite <- (map_id l) at 2.
  rewrite (total_map_ext (fun x => x / c) (fun x => / c * x)) by (intros; field; auto).
  rewrite (total_map_scale (fun x => x)). unfold Rdiv; ring.
Qed.

Lemma normalise_distribution l :
  Forall (fun x => 0 <= x) l -> total l <> 0 ->
  exists q, normalise l = map Some q /\ length q = length l
    /\ Forall (fun x => 0 <= x) q /\ total q = 1.
Proof.
  intros Hl Ht. exists (map (fun x => x / total l) l).
  split; [apply normalise_somes; exact Ht|].
  split; [apply map_length|].
  assert (0 <= total l) by (apply total_nonneg; exact Hl).
  split.
  - apply Forall_map. eapply Forall_impl; [|exact Hl]. cbn; intros x Hx.
    apply Rmult_le_pos; [exact Hx|left; apply Rinv_0_lt_compat; lra].
  - rewrite total_div by exact Ht. field; exact Ht.
Qed.

Lemma Forall_map2_nonneg (f : R -> R -> R) l m :
  Forall (fun x => 0 <= x) l -> (forall x y, 0 <= x -> In y m -> 0 <= f x y) ->
  Forall (fun x => 0 <= x) (map2 f l m).
Proof.
  revert m; induction l as [|x l IH]; intros [|y m] Hl Hf; cbn; try constructor.
  - inversion Hl; subst. apply Hf; auto; left; reflexivity.
  - inversion Hl; subst. apply IH; auto. intros; apply Hf; auto; right; auto.
Qed.

Lemma phase_function_dist par perp :
  length par = length perp ->
  Forall (fun x => 0 <= x) par -> Forall (fun x => 0 <= x) perp ->
  total par + total perp <> 0 ->
  exists q, phase_function_p par perp = map Some q /\ length q = length par
    /\ Forall (fun x => 0 <= x) q /\ total q = 1.
Proof.
  intros Hl Hp Hq Ht. unfold phase_function_p.
  assert (Hs : forall l m, length l = length m -> total (map2 Rplus l m) = total l + total m).
  { clear. induction l as [|a l IH]; intros [|b m] H; cbn in *; try lia; [lra|]. rewrite IH by lia. lra. }
  destruct (normalise_distribution (map2 Rplus par perp)) as [q [E [El [Hn Hone]]]].
  - apply Forall_map2_nonneg; auto. intros x y Hx Hy.
    rewrite Forall_forall in Hq. specialize (Hq y Hy). lra.
  - rewrite Hs by exact Hl. exact Ht.
  - exists q. split; [exact E|]. split; [rewrite El, map2_length; lia|]. split; auto.
Qed.

Lemma linspace_in a b n t : a <= b -> In t (linspace a b n) -> a <= t <= b.
Proof.
  intros Hab H. unfold linspace in H. apply in_map_iff in H as [i [<- Hi]].
  apply in_seq in Hi.
  assert (Hi' : (i < n)%nat) by lia.
  destruct (Nat.eq_dec n 1) as [->|Hn].
  - assert (i = 0%nat) by lia; subst. cbn. rewrite Rmult_0_l. lra.
  - assert (Hd : 0 < INR (n - 1)) by (apply lt_0_INR; lia).
    assert (Hle : INR i <= INR (n - 1)) by (apply le_INR; lia).
    pose proof (pos_INR i).
    assert (Hq : 0 <= (b - a) / INR (n - 1)) by (apply Rmult_le_pos; [lra|left; apply Rinv_0_lt_compat; lra]).
    assert (INR (n - 1) * ((b - a) / INR (n - 1)) = b - a) by (field; lra).
    split; [nra|]. nra.
Qed.
Lemma linspace_length a b n : length (linspace a b n) = n.
Proof. unfold linspace; rewrite map_length, seq_length; reflexivity. Qed.

Lemma sample_angles_dist p min_angle :
  0 <= min_angle <= PI -> Forall (fun x => 0 <= x) p ->
  total (map2 (fun x t => x * sin t) p (linspace min_angle PI (length p))) <> 0 ->
  exists q, sample_angles_prob p min_angle = map Some q /\ length q = length p
    /\ Forall (fun x => 0 <= x) q /\ total q = 1.
Proof.
  intros Hm Hp Ht. unfold sample_angles_prob. cbv zeta.
  pose proof PI_RGT_0 as Hpi.
  destruct (normalise_distribution (map2 (fun x t => x * sin t * 2 * PI) p (linspace min_angle PI (length p))))
    as [q [E [El [Hn Hone]]]].
  - apply Forall_map2_nonneg; auto. intros x t Hx Hin.
    apply linspace_in in Hin; [|lra].
    assert (0 <= sin t) by (apply sin_ge_0; lra).
    assert (0 <= x * sin t) by (apply Rmult_le_pos; auto); assert (0 <= x * sin t * 2) by lra; apply Rmult_le_pos; lra.
  - intros E. apply Ht.
    assert (G : forall l m, total (map2 (fun x t => x * sin t * 2 * PI) l m)
                = 2 * PI * total (map2 (fun x t => x * sin t) l m)).
    { clear. induction l as [|a l IH]; intros [|b m]; cbn; rewrite ?IH; ring. }
    rewrite G in E. apply Rmult_integral in E as [E|E]; [lra|exact E].
  - exists q. rewrite El, map2_length, linspace_length, Nat.min_id in *. auto.
Qed.

(* ------------------------------------------------------------------ *)
(** * Launch conditions, film *)

Lemma entry_dir_some theta phi nm ns k :
  0 < nm -> 0 < ns -> entry_dir theta (cos phi) (sin phi) nm ns = Some k ->
  unit k /\ 0 <= vz k /\ ns * vx k = nm * (sin theta * cos phi)
  /\ ns * vy k = nm * (sin theta * sin phi).
Proof.
  intros Hm Hs. unfold entry_dir. rewrite !Rabs_right by lra.
  destruct (refraction theta nm ns) as [t|] eqn:E; [|discriminate].
  intros H; injection H as <-. apply refraction_some in E as [Ht Hsn]; [|exact Hs].
  unfold unit, dot; cbn. unfold snell in Hsn.
  pose proof (cs2 t). pose proof (cs2 phi).
  split.
  - transitivity (sin t * sin t * (sin phi * sin phi + cos phi * cos phi) + cos t * cos t); [ring|].
    rewrite H0. lra.
  - split; [apply cos_ge_0; lra|]. split.
    + rewrite <- !Rmult_assoc. rewrite <- Hsn. ring.
    + rewrite <- !Rmult_assoc. rewrite <- Hsn. ring.
Qed.

Lemma entry_dir_exists theta cp sp nm ns :
  0 < nm -> nm <= ns -> entry_dir theta cp sp nm ns <> None.
Proof.
  intros Hm Hs. unfold entry_dir. rewrite !Rabs_right by lra.
  unfold refraction. replace (Rltb 1 (Rabs (nm / ns * sin theta))) with false; [discriminate|].
  symmetry; apply Rltb_false. rewrite Rabs_mult.
  assert (0 <= nm / ns <= 1).
  { split; [apply Rmult_le_pos; [lra|left; apply Rinv_0_lt_compat; lra]|].
    apply Rmult_le_reg_l with ns; [lra|]. replace (ns * (nm / ns)) with nm by (field; lra). lra. }
  rewrite (Rabs_right (nm / ns)) by lra.
  assert (Rabs (sin theta) <= 1).
  { pose proof (SIN_bound theta). unfold Rabs; destruct (Rcase_abs (sin theta)); lra. }
  pose proof (Rabs_pos (sin theta)). nra.
Qed.

Definition film_start_ok (nevents : nat) (spot nm ns theta phi : R) (s : start) : Prop :=
  let '(p, d, w) := s in
  vz p = 0 /\ 0 <= vx p < spot /\ 0 <= vy p < spot /\ w = repeat 1 nevents
  /\ (nm <= ns -> d <> None)
  /\ (forall k, d = Some k ->
        unit k /\ 0 <= vz k /\ ns * vx k = nm * (sin theta * cos phi)
        /\ ns * vy k = nm * (sin theta * sin phi)).


Lemma map_seq_nth_error {A} (f : nat -> A) n i x :
  nth_error (map f (seq 0 n)) i = Some x -> (i < n)%nat /\ f i = x.
Proof.
  intros Hi. rewrite nth_error_map in Hi.
  destruct (nth_error (seq 0 n) i) as [j|] eqn:Ej; cbn in Hi; [|discriminate].
  assert (Hlt : (i < n)%nat).
  { rewrite <- (seq_length n 0). apply nth_error_Some. congruence. }
  apply nth_error_nth with (d := 0%nat) in Ej. rewrite seq_nth in Ej by exact Hlt.
  cbn in Ej. subst j. split; [exact Hlt|congruence].
Qed.

Lemma initialize_film_ok nevents ntraj spot td pd tmin tmax pmin pmax nm ns ux uy ut up :
  0 < spot -> 0 < nm -> 0 < ns -> in01 ux -> in01 uy ->
  (forall l, td = Some l -> length l = ntraj) -> (forall l, pd = Some l -> length l = ntraj) ->
  exists l, initialize_film nevents ntraj spot None td pd tmin tmax pmin pmax nm ns ux uy ut up = Ok l
    /\ length l = ntraj
    /\ forall i s, nth_error l i = Some s ->
         film_start_ok nevents spot nm ns
           (match td with Some t => nth i t 0 | None => tmin + (tmax - tmin) * ut i end)
           (match pd with Some t => nth i t 0 | None => pmin + (pmax - pmin) * up i end) s.
Proof.
  intros Hspot Hm Hs Hux Huy Htd Hpd. unfold initialize_film.
  assert (Ht : match td with None => false | Some l => negb (Nat.eqb (length l) ntraj) end = false).
  { destruct td as [l|]; [|reflexivity]. rewrite (Htd l eq_refl), Nat.eqb_refl. reflexivity. }
  assert (Hp : match pd with None => false | Some l => negb (Nat.eqb (length l) ntraj) end = false).
  { destruct pd as [l|]; [|reflexivity]. rewrite (Hpd l eq_refl), Nat.eqb_refl. reflexivity. }
  cbv zeta. rewrite Ht, Hp.
  eexists; split; [reflexivity|]. split; [rewrite map_length, seq_length; reflexivity|].
  intros i s Hi. pose proof Hi as Hi2.
  rewrite nth_error_map in Hi.
  destruct (nth_error (seq 0 ntraj) i) as [j|] eqn:Ej; cbn in Hi; [|discriminate].
  injection Hi as <-.
  assert (j = i).
  { assert (Hlt : (i < ntraj)%nat).
    { rewrite <- (seq_length ntraj 0). apply nth_error_Some. congruence. }
    apply nth_error_nth with (d := 0%nat) in Ej. rewrite seq_nth in Ej by exact Hlt. lia. }
  subst j. unfold film_start_ok. cbn [vz vx vy].
  pose proof (Hux i). pose proof (Huy i).
  split; [reflexivity|]. split; [split; nra|]. split; [split; nra|]. split; [reflexivity|].
  split; [intros; apply entry_dir_exists; lra|].
  intros k Hk. unfold uniform in Hk. apply entry_dir_some in Hk; auto.
Qed.

Lemma initialize_film_errors nevents ntraj spot sd td pd tmin tmax pmin pmax nm ns ux uy ut up :
  initialize_film nevents ntraj spot sd td pd tmin tmax pmin pmax nm ns ux uy ut up = Err ValueError
  <-> (sd <> None \/ (exists l, td = Some l /\ length l <> ntraj)
       \/ (exists l, pd = Some l /\ length l <> ntraj)).
Proof.
  unfold initialize_film. destruct sd as [d|].
  - split; [intros _; left; discriminate|reflexivity].
  - cbv zeta. destruct td as [t|].
    + destruct (Nat.eqb_spec (length t) ntraj); cbn.
      * destruct pd as [q|].
        -- destruct (Nat.eqb_spec (length q) ntraj); cbn.
           ++ split; [discriminate|]. intros [H|[[l [El Hl]]|[l [El Hl]]]]; congruence.
           ++ split; [right; right; eauto|reflexivity].
        -- split; [discriminate|]. intros [H|[[l [El Hl]]|[l [El Hl]]]]; congruence.
      * split; [right; left; eauto|reflexivity].
    + destruct pd as [q|].
      * destruct (Nat.eqb_spec (length q) ntraj); cbn.
        -- split; [discriminate|]. intros [H|[[l [El Hl]]|[l [El Hl]]]]; congruence.
        -- split; [right; right; eauto|reflexivity].
      * split; [discriminate|]. intros [H|[[l [El Hl]]|[l [El Hl]]]]; congruence.
Qed.

(* ------------------------------------------------------------------ *)
(** * Launch conditions, sphere *)


Lemma sphere_start_ok_l spot radius ur uth :
  0 < radius -> 0 <= spot <= 2 * radius -> 0 <= ur < 1 ->
  sphere_start_ok spot radius (sphere_start_pos spot radius ur uth).
Proof.
  intros Hr Hs Hu. unfold sphere_start_ok, sphere_start_pos. cbn [vx vy vz]. cbv zeta.
  set (r := sqrt ur * spot / 2). set (th := 2 * PI * uth).
  assert (Hrad : r * r = ur * (spot / 2) ^ 2).
  { unfold r. replace (sqrt ur * spot / 2 * (sqrt ur * spot / 2)) with ((sqrt ur * sqrt ur) * (spot / 2) ^ 2) by field.
    rewrite sqrt_sqrt by lra. reflexivity. }
  assert (Hxy : (r * cos th) ^ 2 + (r * sin th) ^ 2 = r * r).
  { pose proof (cs2 th) as C. transitivity (r * r * (sin th * sin th + cos th * cos th)); [ring|]. rewrite C; ring. }
  assert (Hle : r * r <= (spot / 2) ^ 2) by (rewrite Hrad; nra).
  assert (Hsr : (spot / 2) ^ 2 <= radius ^ 2) by nra.
  assert (Hroot : 0 <= radius ^ 2 - (r * cos th) ^ 2 - (r * sin th) ^ 2) by lra.
  set (w := sqrt (radius ^ 2 - (r * cos th) ^ 2 - (r * sin th) ^ 2)).
  assert (Hw : w * w = radius ^ 2 - (r * cos th) ^ 2 - (r * sin th) ^ 2) by (apply sqrt_sqrt; exact Hroot).
  assert (Hw0 : 0 <= w) by apply sqrt_pos.
  assert (Hrr : 0 <= r * r) by nra.
  split; [|split].
  - replace ((radius - w - radius) ^ 2) with (w * w) by ring. rewrite Hw. ring.
  - split; nra.
  - lra.
Qed.

Lemma initialize_sphere_ok nevents ntraj spot d nm ns ur uth :
  0 < d -> 0 <= spot <= d -> in01 ur ->
  exists l, initialize_sphere nevents ntraj spot (Some d) nm ns ur uth = Ok l
    /\ length l = ntraj
    /\ Forall (fun s => let '(p, _, w) := s in
                 sphere_start_ok spot (d / 2) p /\ w = repeat 1 nevents) l.
Proof.
  intros Hd Hs Hu. unfold initialize_sphere.
  eexists; split; [reflexivity|]. split; [rewrite map_length, seq_length; reflexivity|].
  apply Forall_map, Forall_forall. intros i _. cbv zeta. split; [|reflexivity].
  apply sphere_start_ok_l; [lra|lra|apply Hu].
Qed.

(** The direction given to a sphere launch without index contrast. *)
Lemma sphere_entry_no_contrast radius p n :
  0 < radius -> 0 < n ->
  vx p ^ 2 + vy p ^ 2 + (vz p - radius) ^ 2 = radius ^ 2 -> 0 <= vz p <= radius ->
  vx p ^ 2 + vy p ^ 2 <> 0 ->
  sphere_entry_dir radius p n n
  = Some (vscale (/ radius) (- vx p, - vy p, radius - vz p)).
Proof.
  intros Hr Hn Hsph Hz Hax. destruct p as [[x y] z]; cbn [vx vy vz] in *.
  unfold sphere_entry_dir, sphere_neg_normal. cbn [vx vy vz]. cbv zeta.
  rewrite Hsph. replace (sqrt (radius ^ 2)) with radius.
  2:{ rewrite <- Rsqr_pow2, sqrt_Rsqr by lra. reflexivity. }
  set (c := - (z - radius) / radius).
  assert (Hc : 0 <= c).
  { unfold c. apply Rmult_le_pos; [lra|left; apply Rinv_0_lt_compat; lra]. }
  assert (Hc2 : c * c = 1 - (x ^ 2 + y ^ 2) / radius ^ 2).
  { unfold c. replace (x ^ 2 + y ^ 2) with (radius ^ 2 - (z - radius) ^ 2) by lra. field; lra. }
  assert (Hpos : 0 < (x ^ 2 + y ^ 2) / radius ^ 2).
  { apply Rdiv_lt_0_compat; [|nra]. assert (0 <= x ^ 2 + y ^ 2) by nra. lra. }
  assert (Hc1 : c < 1) by nra.
  pose proof (acos_bound c) as Hb.
  assert (Hcos : cos (acos c) = c) by (apply cos_acos; lra).
  assert (Hsin : 0 < sin (acos c)).
  { assert (0 < acos c < PI) by (apply acos_bound_lt; lra). apply sin_gt_0; lra. }
  assert (Hle : acos c <= PI / 2).
  { rewrite acos_asin by lra.
    assert (0 <= asin c); [|lra].
    rewrite <- asin_0. destruct Hc as [Hc|Hc]; [left; apply asin_increasing; lra|rewrite <- Hc; lra]. }
  replace (Reqb (sin (acos c)) 0) with false by (symmetry; apply Reqb_false; lra).
  unfold entry_dir. rewrite !Rabs_right by lra.
  rewrite refraction_same by (auto; lra).
  rewrite Hcos. generalize dependent (sin (acos c)). intros sn Hsn. unfold vscale, c; cbn.
  do 2 f_equal; [f_equal|]; field; lra.
Qed.

Lemma sphere_entry_refuted_l :
  exists d spot ur uth n p k,
    0 < d /\ 0 < n /\ 0 < spot <= d /\ 0 <= ur < 1 /\ 0 <= uth < 1
    /\ initialize_sphere 1 1 spot (Some d) n n (fun _ => ur) (fun _ => uth)
       = Ok [(p, Some k, [1])]
    /\ k <> ez.
Proof.
  exists 2, 2, (1 / 4), 0, 1. unfold initialize_sphere. cbn [seq map repeat].
  set (p := sphere_start_pos 2 (2 / 2) (1 / 4) 0).
  assert (Hsq : sqrt (1 / 4) = 1 / 2).
  { replace (1 / 4) with (Rsqr (1 / 2)) by (unfold Rsqr; field). apply sqrt_Rsqr; lra. }
  assert (Hx : vx p = 1 / 2).
  { unfold p, sphere_start_pos; cbn [vx]. rewrite Hsq, Rmult_0_r, cos_0. field. }
  assert (Hy : vy p = 0).
  { unfold p, sphere_start_pos; cbn [vy]. rewrite Rmult_0_r, sin_0. ring. }
  destruct (sphere_start_ok_l 2 (2 / 2) (1 / 4) 0) as [H1 [H2 H3]]; [lra|lra|lra|].
  fold p in H1, H2, H3.
  exists p. exists (vscale (/ (2 / 2)) (- vx p, - vy p, 2 / 2 - vz p)).
  repeat (split; [lra|]). split.
  - rewrite sphere_entry_no_contrast; auto; try lra. rewrite Hx, Hy; lra.
  - intros E. apply (f_equal vx) in E. change (/ (2 / 2) * (- vx p) = 0) in E.
    rewrite Hx in E. lra.
Qed.

(** On the axis the direction is not even a number. *)
Lemma sphere_entry_axis_nan radius nm ns :
  0 < radius -> sphere_entry_dir radius (0, 0, 0) nm ns = None.
Proof.
  intros Hr. unfold sphere_entry_dir, sphere_neg_normal. cbn [vx vy vz]. cbv zeta.
  replace (0 ^ 2 + 0 ^ 2 + (0 - radius) ^ 2) with (Rsqr radius) by (unfold Rsqr; ring).
  rewrite sqrt_Rsqr by lra.
  replace (- (0 - radius) / radius) with 1 by (field; lra).
  rewrite acos_1, sin_0. replace (Reqb 0 0) with true by (symmetry; apply Reqb_true; reflexivity).
  reflexivity.
Qed.

(* ------------------------------------------------------------------ *)
(** * Coarse roughness *)

Lemma rot_y_dot t k l : dot (rot_y t k) (rot_y t l) = dot k l.
Proof.
  destruct k as [[x y] z], l as [[a b] c]; unfold dot, rot_y; cbn.
  pose proof (cs2 t) as C. set (s := sin t) in *; set (q := cos t) in *.
  transitivity ((s * s + q * q) * (x * a + z * c) + y * b); [ring|]. rewrite C; ring.
Qed.
Lemma rot_y_inv t k : rot_y (2 * PI - t) (rot_y t k) = k.
Proof.
  destruct k as [[x y] z]; unfold rot_y; cbn.
  replace (2 * PI - t) with (- t + 2 * INR 1 * PI) by (cbn; ring).
  rewrite cos_period, sin_period, cos_neg, sin_neg.
  pose proof (cs2 t) as C. set (s := sin t) in *; set (q := cos t) in *.
  f_equal; [f_equal|].
  - transitivity ((s * s + q * q) * x); [ring|rewrite C; ring].
  - transitivity ((s * s + q * q) * z); [ring|rewrite C; ring].
Qed.

(** Normal of a facet tilted by theta_a about the y axis, in sample axes. *)

Lemma rot_y_z t k : vz (rot_y t k) = dot k (facet_normal t).
Proof. destruct k as [[x y] z]; unfold rot_y, dot, facet_normal; cbn; ring. Qed.

Lemma rough_reflection k t nm ns refr kzr refl :
  rough_enter1 k t nm ns = (refr, kzr, refl) ->
  refl = mirror (facet_normal t) k /\ kzr = dot k (facet_normal t) /\ dot refl refl = dot k k.
Proof.
  unfold rough_enter1. intros H. injection H as _ <- <-.
  split; [|split].
  - unfold mirror, facet_normal. destruct k as [[x y] z]; unfold rot_y, vsub, vscale, dot; cbn.
    replace (2 * PI - t) with (- t + 2 * INR 1 * PI) by (cbn; ring).
    rewrite cos_period, sin_period, cos_neg, sin_neg.
    pose proof (cs2 t) as C. set (s := sin t) in *; set (q := cos t) in *.
    f_equal; [f_equal|].
    + transitivity ((s * s + q * q) * x - 2 * (x * s + y * 0 + z * q) * s); [ring|rewrite C; ring].
    + ring.
    + transitivity ((s * s + q * q) * z - 2 * (x * s + y * 0 + z * q) * q); [ring|rewrite C; ring].
  - apply rot_y_z.
  - rewrite rot_y_dot. rewrite <- (rot_y_dot t k k). unfold dot; cbn; ring.
Qed.

Lemma rough_refracted_unit k t nm ns k' kzr refl :
  0 < Rabs ns -> rough_enter1 k t nm ns = (Some k', kzr, refl) -> unit k'.
Proof.
  intros Hs. unfold rough_enter1. intros H. injection H as H _ _. revert H.
  destruct (refraction _ nm (Rabs ns)) as [u|]; [|discriminate].
  intros H; injection H as <-. unfold unit. rewrite rot_y_dot.
  unfold dot; cbn.
  set (phi := acos _). pose proof (cs2 u). pose proof (cs2 phi) as C.
  transitivity (sin u * sin u * (sin phi * sin phi + cos phi * cos phi) + cos u * cos u); [ring|].
  rewrite C; lra.
Qed.

(** Without index contrast light along +z hitting a tilted facet leaves its
    plane of incidence: the y component becomes sin*cos of the tilt. *)
Lemma rough_leaves_plane t n :
  0 < n -> 0 < t < PI / 2 ->
  exists k' kzr refl, rough_enter1 ez t n n = (Some k', kzr, refl)
    /\ vy k' = sin t * cos t /\ vy k' > 0.
Proof.
  intros Hn Ht. unfold rough_enter1, ez, rot_y. cbn [vx vy vz].
  rewrite !Rmult_0_r, Rplus_0_l, !Rmult_1_r.
  replace (0 - sin t) with (- sin t) by ring.
  replace ((- sin t) ^ 2 + 0 ^ 2 + cos t ^ 2) with 1.
  2:{ pose proof (cs2 t). lra. }
  rewrite sqrt_1. unfold Rdiv. rewrite !Rinv_1, !Rmult_1_r.
  rewrite acos_cos by lra. rewrite Rabs_right by lra. rewrite refraction_same by (auto; lra).
  assert (Hs : 0 < sin t) by (apply sin_gt_0; lra).
  assert (Hc : 0 < cos t) by (apply cos_gt_0; lra).
  assert (Hac : sin (acos (- sin t)) = cos t).
  { pose proof (SIN_bound t). rewrite sin_acos by lra.
    replace (1 - (- sin t)²) with (Rsqr (cos t)).
    - apply sqrt_Rsqr; lra.
    - unfold Rsqr. pose proof (cs2 t). lra. }
  eexists; eexists; eexists. split; [reflexivity|]. cbn [vy]. rewrite Hac.
  split; [reflexivity|]. apply Rmult_gt_0_compat; lra.
Qed.

Lemma rough_refraction_refuted_l :
  exists k0 t n k' kzr refl,
    unit k0 /\ 0 < n /\ 0 < t < PI / 2
    /\ coarse_roughness_enter film [k0] [t] n n = Ok [(Some k', kzr, refl)]
    /\ k' <> k0.
Proof.
  pose proof PI_RGT_0.
  destruct (rough_leaves_plane (PI / 4) 1) as [k' [kzr [refl [E [_ Hy]]]]]; [lra|lra|].
  exists ez, (PI / 4), 1, k', kzr, refl.
  split; [unfold unit, dot, ez; cbn; ring|]. split; [lra|]. split; [lra|].
  split; [unfold coarse_roughness_enter; cbn [map2]; rewrite E; reflexivity|].
  intros ->. unfold ez in Hy; cbn in Hy; lra.
Qed.

Lemma P_theta_a_nonneg t r : 0 <= t < PI / 2 -> r <> 0 -> 0 <= P_theta_a t r.
Proof.
  intros Ht Hr. unfold P_theta_a.
  apply Rmult_le_pos; [|left; apply exp_pos].
  assert (0 <= sin t) by (apply sin_ge_0; lra).
  assert (0 < cos t) by (apply cos_gt_0; lra).
  assert (0 < r ^ 2) by nra.
  apply Rmult_le_pos; [apply Rmult_le_pos; [auto|left; apply Rinv_0_lt_compat; auto]|].
  left; apply Rinv_0_lt_compat. apply pow_lt; auto.
Qed.
