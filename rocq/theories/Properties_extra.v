(** Numerical helpers: C120-C122. *)
From Coq Require Import Lra Lia Psatz FinFun.
From Verif Require Import Num Spec Spec_scatter Spec_scat Spec_extra L_num L_trapezoid M_extra L_extra.
From Coquelicot Require Import Complex.
Open Scope R_scope.

(** * C120: conv_circ is circular convolution. *)
Theorem C120_circular s g : s <> [] -> length s = length g ->
  conv_circ s g = Ok (map (circular s g) (seq 0 (length s))).
Proof.
  intros Hs El. rewrite conv_circ_value by assumption. f_equal.
Qed.
Print Assumptions C120_circular.
Example C120_circular_case : conv_circ [1; 2; 3] [5; 7; 11] = Ok [5 * 1 + 11 * 2 + 7 * 3; 7 * 1 + 5 * 2 + 11 * 3; 11 * 1 + 7 * 2 + 5 * 3].
Proof.
  rewrite C120_circular; [|discriminate|reflexivity]. f_equal.
  cbn -[Rplus Rmult]. f_equal; [ring|f_equal; [ring|f_equal; ring]].
Qed.

Lemma circular_comm s g i : length s = length g -> (i < length s)%nat -> circular s g i = circular g s i.
Proof.
  intros El Hi. unfold circular. rewrite <- El. set (n := length s) in *.
  set (f := fun a b => if Nat.eqb ((a + b) mod n) i then nth a s 0 * nth b g 0 else 0).
  assert (E1 : total (map (fun j => nth j s 0 * nth ((i + n - j) mod n) g 0) (seq 0 n))
    = total (map (fun a => total (map (fun b => f a b) (seq 0 n))) (seq 0 n))).
  { f_equal. apply map_ext_in. intros a Ha. apply in_seq in Ha. symmetry.
    assert (Hb : (back n i a < n)%nat) by (apply Nat.mod_upper_bound; lia).
    apply RtoC_inj. change (total (map (fun b => f a b) (seq 0 n))) with (Rsum (map (fun b => f a b) (seq 0 n))).
    rewrite <- Cs_real. rewrite (Cs_single n _ (back n i a)).
    - unfold f. rewrite (proj2 (Nat.eqb_eq _ _)); [reflexivity|]. apply back_unique; auto; lia.
    - exact Hb.
    - intros b Hb' Hne. unfold f. destruct (Nat.eqb_spec ((a + b) mod n) i) as [H|H]; [|reflexivity].
      exfalso. apply Hne. apply back_unique; (lia || assumption). }
  assert (E2 : total (map (fun j => nth j g 0 * nth ((i + n - j) mod n) s 0) (seq 0 n))
    = total (map (fun b => total (map (fun a => f a b) (seq 0 n))) (seq 0 n))).
  { f_equal. apply map_ext_in. intros a Ha. apply in_seq in Ha. symmetry.
    assert (Hb : (back n i a < n)%nat) by (apply Nat.mod_upper_bound; lia).
    apply RtoC_inj. change (total (map (fun b => f b a) (seq 0 n))) with (Rsum (map (fun b => f b a) (seq 0 n))).
    rewrite <- Cs_real. rewrite (Cs_single n _ (back n i a)).
    - unfold f. rewrite (proj2 (Nat.eqb_eq _ _)); [f_equal; unfold back; ring|]. rewrite Nat.add_comm. apply back_unique; auto; lia.
    - exact Hb.
    - intros b Hb' Hne. unfold f. destruct (Nat.eqb_spec ((b + a) mod n) i) as [H|H]; [|reflexivity].
      rewrite Nat.add_comm in H. exfalso. apply Hne. apply back_unique; (lia || assumption). }
  rewrite E1, E2. apply RtoC_inj.
  change (RtoC (Rsum (map (fun a => Rsum (map (fun b => f a b) (seq 0 n))) (seq 0 n)))
        = RtoC (Rsum (map (fun b => Rsum (map (fun a => f a b) (seq 0 n))) (seq 0 n)))).
  rewrite <- !Cs_real.
  transitivity (Cs n (fun a => Cs n (fun b => RtoC (f a b)))).
  - apply Cs_ext. intros a _. symmetry. apply Cs_real.
  - rewrite Cs_swap. apply Cs_ext. intros b _. apply Cs_real.
Qed.

(** Exchanging signal and kernel changes nothing. *)
Theorem C120_commutes s g : length s = length g -> conv_circ s g = conv_circ g s.
Proof.
  intros El. destruct s as [|x s]; destruct g as [|y g]; try discriminate El; [reflexivity|].
  rewrite !C120_circular by (assumption || discriminate || (symmetry; assumption)). rewrite <- El. f_equal.
  apply map_ext_in. intros i Hi. apply in_seq in Hi. apply circular_comm; [exact El|lia].
Qed.
Print Assumptions C120_commutes.

(** Convolving with the impulse gives the signal back. *)
Theorem C120_impulse s : s <> [] -> conv_circ s (impulse (length s)) = Ok s.
Proof.
  intros Hs. assert (El : length s = length (impulse (length s))) by (unfold impulse; now rewrite map_length, seq_length).
  rewrite C120_commutes by exact El. rewrite C120_circular; [|destruct s; [contradiction|discriminate]|now symmetry].
  rewrite <- El. f_equal. etransitivity; [|apply list_nth_seq]. apply map_ext_in. intros i Hi. apply in_seq in Hi.
  unfold circular. rewrite <- El. set (n := length s) in *.
  apply RtoC_inj. change (total ?l) with (Rsum l). rewrite <- Cs_real. rewrite (Cs_single n _ 0%nat); [|lia|].
  - unfold impulse. rewrite nth_map_seq0 by lia. rewrite Nat.sub_0_r.
    replace (i + n)%nat with (i + 1 * n)%nat by lia. rewrite Nat.mod_add by lia. rewrite Nat.mod_small by lia. now rewrite Rmult_1_l.
  - intros j Hj Hne. unfold impulse. rewrite nth_map_seq0 by exact Hj. destruct j; [contradiction|]. now rewrite Rmult_0_l.
Qed.
Print Assumptions C120_impulse.

(** The entries of the result add up to the product of the two sums: smoothing
    with a kernel of sum 1 conserves the total. *)
Theorem C120_conserves s g r : length s = length g -> conv_circ s g = Ok r -> total r = total s * total g.
Proof.
  intros El H. destruct s as [|x0 s0] eqn:Es; [cbn in H; discriminate|]. rewrite <- Es in *.
  assert (Hs : s <> []) by (subst s; discriminate). clear Es x0 s0.
  rewrite C120_circular in H by assumption. injection H as <-. unfold circular.
  set (n := length s) in *. assert (Hn : (0 < n)%nat) by (unfold n; destruct s; [contradiction|cbn; lia]).
  apply RtoC_inj. change (total ?l) with (Rsum l). rewrite <- Cs_real.
  transitivity (Cs n (fun i => Cs n (fun j => RtoC (nth j s 0 * nth (back n i j) g 0)))).
  { apply Cs_ext. intros i _. symmetry. apply Cs_real. }
  rewrite Cs_swap.
  assert (Eg : forall j, (j < n)%nat -> Cs n (fun i => RtoC (nth (back n i j) g 0)) = RtoC (total g)).
  { intros j Hj.
    transitivity (Cs n (fun i => Cs n (fun b => if Nat.eqb b (back n i j) then RtoC (nth b g 0) else RtoC 0))).
    { apply Cs_ext. intros i Hi. symmetry. rewrite (Cs_single n _ (back n i j)).
      - now rewrite Nat.eqb_refl.
      - apply Nat.mod_upper_bound; lia.
      - intros b _ Hne. destruct (Nat.eqb_spec b (back n i j)); [contradiction|reflexivity]. }
    rewrite Cs_swap. transitivity (Cs n (fun b => RtoC (nth b g 0))).
    { apply Cs_ext. intros b Hb. rewrite (Cs_single n _ ((j + b) mod n)).
      - destruct (Nat.eqb_spec b (back n ((j + b) mod n) j)) as [H|H]; [reflexivity|].
        exfalso. apply H. apply back_unique; auto. apply Nat.mod_upper_bound; lia.
      - apply Nat.mod_upper_bound; lia.
      - intros i Hi Hne. destruct (Nat.eqb_spec b (back n i j)) as [H|H]; [|reflexivity].
        exfalso. apply Hne. symmetry. apply back_unique; auto. }
    rewrite Cs_real. f_equal. change (Rsum ?l) with (total l). rewrite El. apply total_nth. }
  transitivity (Cs n (fun j => Cmult (RtoC (total g)) (RtoC (nth j s 0)))).
  { apply Cs_ext. intros j Hj. rewrite <- (Eg j Hj), Cmult_comm, <- Cs_scal. apply Cs_ext. intros i _. now rewrite RtoC_mult. }
  rewrite Cs_scal, Cs_real, <- RtoC_mult. f_equal. change (Rsum ?l) with (total l). unfold n. rewrite total_nth. ring.
Qed.
Print Assumptions C120_conserves.
Example C120_conserves_case : exists r, conv_circ [1; 2; 3] [5; 7; 11] = Ok r /\ total r = 6 * 23.
Proof.
  eexists. split; [apply C120_circular_case|]. cbn. lra.
Qed.

(** Empty arrays and arrays of different lengths (above 1) raise ValueError. *)
Theorem C120_bad_shapes s g :
  (s = [] \/ g = [] \/ (length s <> length g /\ (1 < length s)%nat /\ (1 < length g)%nat)) -> conv_circ s g = Err ValueError.
Proof.
  intros [->|[->|(H1 & H2 & H3)]]; [reflexivity|destruct s; reflexivity|].
  unfold conv_circ. destruct (length s) as [|[|n]] eqn:En; try lia. destruct (length g) as [|[|m]] eqn:Em; try lia.
  rewrite (proj2 (Nat.eqb_neq _ _)) by exact H1. reflexivity.
Qed.
Print Assumptions C120_bad_shapes.
Example C120_bad_shapes_case : conv_circ [1; 2] [1; 2; 3] = Err ValueError.
Proof. apply C120_bad_shapes. right; right. cbn. lia. Qed.

(** Arrays of one element are stretched by numpy to the length of the other:
    the result is the other array times that element. *)
Lemma fft_spike a m : fft (map RtoC (a :: repeat 0 m)) = repeat (RtoC a) (S m).
Proof.
  rewrite fft_seq. cbn [length]. rewrite repeat_length.
  assert (E : forall l, map (fun _ : nat => RtoC a) l = repeat (RtoC a) (length l)) by (induction l as [|x l IH]; cbn; congruence).
  transitivity (map (fun _ : nat => RtoC a) (seq 0 (S m))); [|rewrite E, seq_length; reflexivity]. apply map_ext. intros k. unfold Cs.
  change (seq 0 (S m)) with (0%nat :: seq 1 m). cbn [map Csum fold_right]. change (nth 0 (a :: repeat 0 m) 0) with a. fold (Csum (map (fun j => Cmult (RtoC (nth j (a :: repeat 0 m) 0)) (cis (- (2 * PI * INR (j * k) / INR (S m))))) (seq 1 m))).
  assert (Z : forall l, (forall j, In j l -> (0 < j)%nat) ->
     Csum (map (fun j => Cmult (RtoC (nth j (a :: repeat 0 m) 0)) (cis (- (2 * PI * INR (j * k) / INR (S m))))) l) = RtoC 0).
  { induction l as [|j l IH]; intros Hl; [reflexivity|]. cbn [map Csum fold_right].
    fold (Csum (map (fun j => Cmult (RtoC (nth j (a :: repeat 0 m) 0)) (cis (- (2 * PI * INR (j * k) / INR (S m))))) l)).
    rewrite IH by (intros; apply Hl; now right). assert (0 < j)%nat by (apply Hl; now left).
    destruct j as [|j]; [lia|]. cbn [nth]. replace (nth j (repeat 0 m) 0) with 0; [ring|].
    destruct (Nat.lt_ge_cases j m); [symmetry; apply nth_repeat|rewrite nth_overflow; [reflexivity|rewrite repeat_length; lia]]. }
  rewrite Z by (intros j Hj; apply in_seq in Hj; lia).
  replace (- (2 * PI * INR (0 * k) / INR (S m))) with 0 by (cbn [Nat.mul INR]; unfold Rdiv; ring).
  rewrite cis_0. ring.
Qed.

Lemma conv_spike a g : g <> [] -> conv_circ (a :: repeat 0 (length g - 1)) g = Ok (map (Rmult a) g).
Proof.
  intros Hne. assert (Hl : (0 < length g)%nat) by (destruct g; [contradiction|cbn; lia]).
  rewrite C120_circular; [|discriminate|cbn; rewrite repeat_length; lia]. f_equal.
  cbn [length]. rewrite repeat_length. replace (S (length g - 1)) with (length g) by lia.
  transitivity (map (fun i => a * nth i g 0) (seq 0 (length g))).
  - apply map_ext_in. intros i Hi. apply in_seq in Hi. unfold circular.
    cbn [length]. rewrite repeat_length. replace (S (length g - 1)) with (length g) by lia.
    destruct (length g) as [|n] eqn:En; [lia|]. cbn [seq map total fold_right nth].
    rewrite Nat.sub_0_r. replace (i + S n)%nat with (i + 1 * S n)%nat by lia.
    rewrite Nat.mod_add, Nat.mod_small by lia.
    match goal with |- _ + ?t = _ => assert (Z : t = 0) end; [|rewrite Z; ring].
    match goal with |- total (map ?f ?l) = _ => assert (Z : forall l', (forall j, In j l' -> (0 < j)%nat) -> total (map f l') = 0) end.
    { induction l' as [|j l' IH]; intros Hj; [reflexivity|]. cbn [map total].
      rewrite IH by (intros; apply Hj; now right). assert (0 < j)%nat by (apply Hj; now left).
      destruct j as [|j]; [lia|]. cbn [nth]. replace (nth j (repeat 0 (S n - 1)) 0) with 0; [ring|].
      destruct (Nat.lt_ge_cases j (S n - 1)); [symmetry; apply nth_repeat|rewrite nth_overflow; [reflexivity|rewrite repeat_length; lia]]. }
    apply Z. intros j Hj. apply in_seq in Hj. lia.
  - rewrite <- (list_nth_seq g) at 2. rewrite map_map. reflexivity.
Qed.

Theorem C120_one_element a g : g <> [] ->
  conv_circ [a] g = Ok (map (Rmult a) g) /\ conv_circ g [a] = Ok (map (Rmult a) g).
Proof.
  intros Hne. assert (Hl : (0 < length g)%nat) by (destruct g; [contradiction|cbn; lia]).
  rewrite <- (conv_spike a g Hne).
  assert (E0 : nth 0 (fft (map RtoC [a])) (RtoC 0) = RtoC a) by (assert (F1 : fft (map RtoC [a]) = [RtoC a]) by exact (fft_spike a 0); rewrite F1; reflexivity).
  assert (M1 : forall G : list C, map2 Cmult (repeat (RtoC a) (length G)) G = map (fun b => Cmult (RtoC a) b) G)
    by (induction G as [|b G IH]; cbn; congruence).
  assert (Lg : length (fft (map RtoC g)) = length g) by (unfold fft; rewrite map_length, seq_length, map_length; reflexivity).
  assert (L1 : length (a :: repeat 0 (length g - 1)) = length g) by (cbn; rewrite repeat_length; lia).
  assert (V : conv_circ (a :: repeat 0 (length g - 1)) g
     = Ok (map fst (ifft (map (fun b => Cmult (RtoC a) b) (fft (map RtoC g)))))).
  { unfold conv_circ. rewrite L1. destruct (length g) as [|n] eqn:En; [lia|]. rewrite Nat.eqb_refl.
    rewrite fft_spike. replace (S (S n - 1)) with (S n) by lia. rewrite <- Lg, M1. reflexivity. }
  rewrite V. unfold conv_circ. rewrite E0. cbn [length].
  destruct (length g) as [|[|n]] eqn:En; [lia| |].
  - cbn [Nat.eqb]. destruct (fft (map RtoC g)) as [|z [|z' t]] eqn:Ef; try discriminate Lg.
    assert (F1 : fft (map RtoC [a]) = [RtoC a]) by exact (fft_spike a 0). rewrite F1. cbn [map2 map].
    split; [reflexivity|]. rewrite (Cmult_comm z). reflexivity.
  - cbn [Nat.eqb]. split; [reflexivity|]. do 3 f_equal. apply map_ext. intros z. apply Cmult_comm.
Qed.
Print Assumptions C120_one_element.
Example C120_one_element_case : conv_circ [2] [1; 3; 5] = Ok [2 * 1; 2 * 3; 2 * 5] /\ conv_circ [1; 3; 5] [2] = Ok [2 * 1; 2 * 3; 2 * 5].
Proof. apply C120_one_element. discriminate. Qed.


(** * C121: calc_directions *)
Lemma distance_gap a b : distance a b = sqrt (gap a b).
Proof. reflexivity. Qed.
Lemma gap_nonneg a b : 0 <= gap a b.
Proof. unfold gap. set (p := vx a - vx b). set (q := vy a - vy b). set (r := vz a - vz b). pose proof (pow2_ge_0 p). pose proof (pow2_ge_0 q). pose proof (pow2_ge_0 r). lra. Qed.
Lemma argmin_nearest p places : places <> [] -> first_nearest p places (argmin (map (distance p) places)).
Proof.
  intros Hne. destruct (argmin_spec (map (distance p) places)) as (H1 & H2 & H3).
  { destruct places; [contradiction|discriminate]. }
  rewrite map_length in *. set (i := argmin (map (distance p) places)) in *.
  assert (E : forall k, (k < length places)%nat -> nth k (map (distance p) places) 0 = sqrt (gap p (nth k places vzero))).
  { intros k Hk. rewrite (nth_indep _ 0 (distance p vzero)) by (rewrite map_length; exact Hk). now rewrite map_nth. }
  split; [exact H1|]. split.
  - intros k Hk. specialize (H2 k Hk). rewrite !E in H2 by assumption. apply sqrt_le_0; auto using gap_nonneg.
  - intros k Hk. specialize (H3 k Hk). rewrite !E in H3 by lia. apply sqrt_lt_0_alt, H3.
Qed.
Lemma first_nearest_unique p places i k : first_nearest p places i -> first_nearest p places k -> i = k.
Proof.
  intros (A1 & A2 & A3) (B1 & B2 & B3). destruct (Nat.lt_trichotomy i k) as [H|[H|H]]; [|exact H|]; exfalso.
  - specialize (B3 i H). specialize (A2 k B1). lra.
  - specialize (A3 k H). specialize (B2 i A1). lra.
Qed.
Lemma sample_point_toward r t p : sample_point r t p = vscale r (toward t p).
Proof. unfold sample_point, vscale, toward, vx, vy, vz. cbn. f_equal; f_equal; ring. Qed.

(** Every sampled pair of angles gets the direction of the exit event whose
    exit point is nearest to the sampled point of the sphere (the first such
    event); only directions of recorded exit events are returned. *)
Theorem C121_nearest samples exits k1 radius :
  exits <> [] -> length k1 = length exits ->
  exists ks, calc_directions samples exits k1 radius = Ok ks /\ length ks = length samples
  /\ forall n i, (n < length samples)%nat ->
       first_nearest (vscale radius (toward (fst (nth n samples (0, 0))) (snd (nth n samples (0, 0))))) exits i ->
       nth n ks vzero = nth i k1 vzero.
Proof.
  intros He Hl. unfold calc_directions. destruct exits as [|e0 er] eqn:Ee; [contradiction|]. rewrite <- Ee in *.
  set (f := fun a : R * R => argmin (map (distance (sample_point radius (fst a) (snd a))) exits)).
  assert (Hf : forall a, first_nearest (sample_point radius (fst a) (snd a)) exits (f a)) by (intros a; apply argmin_nearest; exact He).
  assert (Hex : existsb (fun i => Nat.leb (length k1) i) (map f samples) = false).
  { induction samples as [|a l IH]; [reflexivity|]. cbn [map existsb]. rewrite IH, orb_false_r.
    apply Nat.leb_gt. rewrite Hl. apply Hf. }
  rewrite Hex. eexists. split; [reflexivity|]. split; [now rewrite !map_length|].
  intros n i Hn Hi. rewrite map_map. set (h := fun a => nth (f a) k1 vzero).
  rewrite (nth_indep (map h samples) vzero (h (0, 0))) by (rewrite map_length; exact Hn).
  rewrite (map_nth h). unfold h. f_equal. eapply first_nearest_unique; [apply Hf|]. now rewrite sample_point_toward.
Qed.
Print Assumptions C121_nearest.

(** For exit points on the sphere the nearest one is the one whose direction
    from the centre makes the smallest angle with the sampled direction, and a
    sampled direction that points exactly at an exit event gets that event's
    direction. *)
Theorem C121_smallest_angle samples exits k1 radius ks n i :
  0 < radius -> Forall unit exits ->
  calc_directions samples (map (vscale radius) exits) k1 radius = Ok ks -> length k1 = length exits ->
  (n < length samples)%nat -> (i < length exits)%nat ->
  let d := toward (fst (nth n samples (0, 0))) (snd (nth n samples (0, 0))) in
  (forall k, (k < length exits)%nat -> k <> i -> dot d (nth k exits vzero) < dot d (nth i exits vzero)) ->
  nth n ks vzero = nth i k1 vzero.
Proof.
  intros Hr Hu Hok Hl Hn Hi d Hd.
  assert (He : exits <> []) by (intros ->; cbn in Hi; lia).
  destruct (C121_nearest samples (map (vscale radius) exits) k1 radius) as (ks' & Ek & _ & Hk).
  { destruct exits; [contradiction|discriminate]. } { now rewrite map_length. }
  rewrite Hok in Ek. injection Ek as <-. apply Hk; [exact Hn|]. fold d.
  assert (Hdd : dot d d = 1).
  { unfold d, toward, dot, vx, vy, vz. cbn [fst snd]. set (t := fst _). set (p := snd _).
    pose proof (sin2_cos2 t) as H1. pose proof (sin2_cos2 p) as H2. unfold Rsqr in *.
    replace (sin t * cos p * (sin t * cos p) + sin t * sin p * (sin t * sin p) + cos t * cos t)
      with (sin t * sin t * (sin p * sin p + cos p * cos p) + cos t * cos t) by ring. rewrite H2. lra. }
  assert (Hg : forall k, (k < length exits)%nat ->
    gap (vscale radius d) (nth k (map (vscale radius) exits) vzero) = radius ^ 2 * (2 - 2 * dot d (nth k exits vzero))).
  { intros k Hkk. rewrite (nth_indep _ vzero (vscale radius vzero)) by (rewrite map_length; exact Hkk). rewrite map_nth.
    assert (Huk : unit (nth k exits vzero)) by (rewrite Forall_forall in Hu; apply Hu, nth_In, Hkk).
    unfold unit in Huk. destruct (nth k exits vzero) as [[ex ey] ez]. destruct d as [[dx dy] dz].
    unfold gap, dot, vscale, vx, vy, vz in *. cbn [fst snd] in *. nra. }
  split; [now rewrite map_length|]. split.
  - intros k Hkk. rewrite map_length in Hkk. rewrite !Hg by assumption. destruct (Nat.eq_dec k i) as [->|Hne]; [lra|].
    specialize (Hd k Hkk Hne). nra.
  - intros k Hki. rewrite !Hg by lia. specialize (Hd k ltac:(lia) ltac:(lia)). 
    apply Rmult_lt_compat_l; [nra|lra].
Qed.
Print Assumptions C121_smallest_angle.

Example C121_case :
  exists ks, calc_directions [(0, 0)] (map (vscale 2) [(0, 0, -1); (0, 0, 1)]) [(1, 0, 0); (0, 1, 0)] 2 = Ok ks
    /\ nth 0 ks vzero = (0, 1, 0).
Proof.
  destruct (C121_nearest [(0, 0)] (map (vscale 2) [(0, 0, -1); (0, 0, 1)]) [(1, 0, 0); (0, 1, 0)] 2) as (ks & E & _ & _);
    [discriminate|reflexivity|]. exists ks. split; [exact E|].
  refine (C121_smallest_angle [(0, 0)] [(0, 0, -1); (0, 0, 1)] _ 2 ks 0 1 ltac:(lra) _ E eq_refl _ _ _).
  - constructor; [|constructor; [|constructor]]; unfold unit, dot, vx, vy, vz; cbn; ring.
  - cbn; lia.
  - cbn; lia.
  - cbn [nth fst snd]. intros [|[|k]] Hk Hne; try (cbn in Hk; lia). unfold toward, dot, vx, vy, vz. cbn [fst snd nth].
    rewrite cos_0, sin_0. lra.
Qed.

(** Without exit points there is no nearest one. *)
Theorem C121_no_exit_points samples k1 radius : samples <> [] -> calc_directions samples [] k1 radius = Err ValueError.
Proof. destruct samples; [contradiction|reflexivity]. Qed.
Print Assumptions C121_no_exit_points.

(** * C122: radial distribution, field factor, phase factor *)

(** The field factor is the average of exp(i qd r) over positions picked with
    the weights g. *)
Theorem C122_field g r_d us qd :
  Forall (fun x => 0 <= x) g -> 0 < total g -> us <> [] -> Forall (fun u => 0 <= u < 1) us ->
  exists z rs, field_phase_py g r_d us qd = Ok z
    /\ Forall2 (fun u r => exists i, picks (fun i => nth i g 0) (length g) u i /\ r = nth i r_d 0) us rs
    /\ fst z = total (map (fun r => cos (qd * r)) rs) / INR (length us)
    /\ snd z = total (map (fun r => sin (qd * r)) rs) / INR (length us).
Proof.
  intros Hg Ht Hne Hu. destruct (sample_all_picks g r_d us Hg Ht Hu) as (rs & Er & Hr).
  unfold field_phase_py. rewrite Er. cbn [bind]. destruct us as [|u0 us'] eqn:Eus; [contradiction|]. rewrite <- Eus in *.
  eexists. exists rs. split; [reflexivity|]. split; [exact Hr|].
  assert (E : Csum (map (fun r => cis (qd * r)) rs) = (total (map (fun r => cos (qd * r)) rs), total (map (fun r => sin (qd * r)) rs))).
  { clear. induction rs as [|r rs IH]; [reflexivity|]. cbn [map Csum fold_right total]. fold (Csum (map (fun r => cis (qd * r)) rs)).
    rewrite IH. reflexivity. }
  rewrite E. cbn [Cmult RtoC fst snd]. unfold Rdiv. split; ring.
Qed.
Print Assumptions C122_field.

(** Its modulus is at most one, it is one at qd = 0, and -qd gives the complex
    conjugate for the same draws. *)
Theorem C122_field_bounds g r_d us qd z :
  field_phase_py g r_d us qd = Ok z -> Cmod z <= 1
  /\ field_phase_py g r_d us (- qd) = Ok (Cconj z)
  /\ field_phase_py g r_d us 0 = Ok (RtoC 1).
Proof.
  unfold field_phase_py. set (p := map _ g).
  assert (Hlen : forall us rs, sample_all p r_d us = Ok rs -> length rs = length us).
  { clear. induction us as [|u us IH]; cbn [sample_all]; intros rs H; [injection H as <-; reflexivity|].
    destruct (choice p u) as [i|e]; cbn [bind] in H; [|discriminate].
    destruct (sample_all p r_d us) as [l|e]; cbn [bind] in H; [|discriminate]. injection H as <-. cbn. now rewrite IH. }
  destruct (sample_all p r_d us) as [rs|e] eqn:E; cbn [bind]; [|discriminate].
  specialize (Hlen us rs E). destruct us as [|u0 us'] eqn:Eus; [discriminate|]. rewrite <- Eus in *.
  intros H. assert (Hz : z = Cmult (RtoC (1 / INR (length us))) (Csum (map (fun r => cis (qd * r)) rs))) by congruence. clear H. subst z.
  assert (Hn : 0 < INR (length us)) by (rewrite Eus; apply lt_0_INR; cbn; lia).
  split; [|split].
  - rewrite Cmod_mult, Cmod_R. pose proof (Cmod_Csum_le (fun r => cis (qd * r)) rs) as B.
    assert (B' : Cmod (Csum (map (fun r => cis (qd * r)) rs)) <= INR (length us)).
    { rewrite <- Hlen. apply B. intros x. rewrite Cmod_cis. lra. }
    assert (Hi : 0 < / INR (length us)) by (apply Rinv_0_lt_compat, Hn).
    rewrite Rabs_pos_eq by (unfold Rdiv; lra).
    apply Rmult_le_compat_l with (r := 1 / INR (length us)) in B'; [|unfold Rdiv; lra].
    replace (1 / INR (length us) * INR (length us)) with 1 in B' by (field; lra). exact B'.
  - f_equal. assert (Hc : forall l, Csum (map (fun r => cis (- qd * r)) l) = Cconj (Csum (map (fun r => cis (qd * r)) l))).
    { clear. induction l as [|r l IH]; [cbn; unfold Cconj, RtoC; cbn; f_equal; ring|].
      cbn [map Csum fold_right]. fold (Csum (map (fun r => cis (- qd * r)) l)) (Csum (map (fun r => cis (qd * r)) l)).
      rewrite IH. replace (- qd * r) with (- (qd * r)) by ring. unfold cis. rewrite cos_neg, sin_neg.
      unfold Cconj, Cplus. cbn [fst snd]. f_equal; ring. }
    rewrite Hc. unfold Cconj, Cmult, RtoC. cbn [fst snd]. f_equal; ring.
  - f_equal. assert (Hc : forall l, Csum (map (fun r => cis (0 * r)) l) = RtoC (INR (length l))).
    { clear. induction l as [|r l IH]; [reflexivity|]. cbn [map Csum fold_right]. fold (Csum (map (fun r => cis (0 * r)) l)).
      rewrite IH, Rmult_0_l, cis_0. cbn [length]. rewrite S_INR, RtoC_plus. ring. }
    rewrite Hc, Hlen, <- RtoC_mult. f_equal. field. lra.
Qed.
Print Assumptions C122_field_bounds.
Example C122_field_case : exists z, field_phase_py [1; 2; 1] [1; 1.5; 2] [0; 0.5] 3 = Ok z /\ Cmod z <= 1.
Proof.
  destruct (C122_field [1; 2; 1] [1; 1.5; 2] [0; 0.5] 3) as (z & rs & E & _).
  - constructor; [lra|constructor; [lra|constructor; [lra|constructor]]].
  - cbn. lra.
  - discriminate.
  - constructor; [lra|constructor; [lra|constructor]].
  - exists z. split; [exact E|]. now apply C122_field_bounds in E.
Qed.

(** A negative value of g in the range (the Percus-Yevick g can dip below zero)
    makes the call fail. *)
Theorem C122_negative_weight g r_d us qd :
  Exists (fun x => x < 0) g -> 0 < total g -> us <> [] -> field_phase_py g r_d us qd = Err ValueError.
Proof.
  intros Hx Ht Hne. unfold field_phase_py. set (p := map _ g).
  assert (Hc : forall u, choice p u = Err ValueError).
  { intros u. unfold choice. assert (Hp : p = map Some (map (fun x => x / total g) g)).
    { unfold p. rewrite map_map. apply map_ext. intros x. unfold ndiv. change (Rsum g) with (total g).
      replace (Reqb (total g) 0) with false; [reflexivity|]. symmetry. apply Reqb_false. lra. }
    rewrite Hp. rewrite L_sizes.get_all_some.
    assert (E : existsb (fun x => Rltb x 0) (map (fun x => x / total g) g) = true).
    { apply existsb_exists. apply Exists_exists in Hx as (x & Hin & Hlt). exists (x / total g).
      split; [now apply in_map with (f := fun x => x / total g)|]. apply Rltb_true.
      assert (0 < / total g) by (apply Rinv_0_lt_compat, Ht). unfold Rdiv. nra. }
    now rewrite E. }
  destruct us as [|u us]; [contradiction|]. cbn [sample_all]. rewrite Hc. reflexivity.
Qed.
Print Assumptions C122_negative_weight.
Example C122_negative_weight_case : field_phase_py [2; -1; 2] [1; 1.5; 2] [0.3] 3 = Err ValueError.
Proof.
  apply C122_negative_weight; [|cbn; lra|discriminate]. apply Exists_cons_tl, Exists_cons_hd. lra.
Qed.

(** Hard core: at every grid distance below one diameter the radial
    distribution function is zero, whatever the interpolating spline does
    between the grid points. *)
Theorem C122_hard_core spline phi n :
  (forall pts, NoDup (map fst pts) -> through (spline pts) pts) ->
  (1 <= n)%nat -> INR n * (5 / 1000) < 1 ->
  radial_dist_py spline phi [INR n * (5 / 1000)] = [0].
Proof.
  intros Hs Hn Hlt. unfold radial_dist_py. cbn [map]. f_equal.
  apply Hs.
  - rewrite map_map. cbn [fst]. rewrite map_id. unfold rd_r. apply Injective_map_NoDup; [|apply seq_NoDup].
    intros a b E. unfold rd_dr in E. apply INR_eq. lra.
  - apply in_map_iff. exists (INR n * (5 / 1000)). split.
    + f_equal. unfold rd_g. rewrite (proj2 (Rleb_false 1 _)) by exact Hlt. reflexivity.
    + unfold rd_r. apply in_map_iff. exists n. split; [reflexivity|]. apply in_seq. split; [exact Hn|].
      apply INR_lt. assert (INR n < 200) by lra. 
      assert (E : INR (1 + rd_n) = 2049) by (unfold rd_n; rewrite plus_INR, INR_IZR_INZ; cbn; lra). rewrite E. lra.
Qed.
Print Assumptions C122_hard_core.

Lemma total_scale_l {A} c (f : A -> R) l : total (map (fun a => c * f a) l) = c * total (map f l).
Proof. induction l as [|a l IH]; cbn; [ring|rewrite IH; ring]. Qed.
Lemma total_scale_r {A} c (f : A -> R) l : total (map (fun a => f a * c) l) = total (map f l) * c.
Proof. induction l as [|a l IH]; cbn; [ring|rewrite IH; ring]. Qed.

(** Beyond one diameter, at the grid distances: one plus the inverse transform
    of the total correlation function that the Ornstein-Zernike relation gives
    for the direct correlation function [cc], with 2048 points 0.005 apart and
    wave numbers 1/(2048*0.005) apart. *)
Theorem C122_beyond_contact spline phi n :
  (forall pts, NoDup (map fst pts) -> through (spline pts) pts) ->
  (1 <= n <= 2048)%nat -> 1 <= INR n * (5 / 1000) ->
  radial_dist_py spline phi [INR n * (5 / 1000)]
  = [1 + inverse3 2048 (1 / (INR 2048 * (5 / 1000)))
           (fun k => ornstein_zernike (6 * phi / PI) (transform3 2048 (5 / 1000) (fun r => cc r phi) k))
           (INR n * (5 / 1000))].
Proof.
  intros Hs Hn Hge. unfold radial_dist_py. cbn [map]. f_equal.
  apply Hs.
  - rewrite map_map. cbn [fst]. rewrite map_id. unfold rd_r. apply Injective_map_NoDup; [|apply seq_NoDup].
    intros a b E. unfold rd_dr in E. apply INR_eq. lra.
  - apply in_map_iff. exists (INR n * (5 / 1000)). split.
    + f_equal. unfold rd_g. rewrite (proj2 (Rleb_true 1 _)) by exact Hge. rewrite Rplus_comm. f_equal.
      set (r := INR n * (5 / 1000)) in *. unfold rd_h, inverse_spherical_FT, inverse3, grid_sum, rd_k.
      rewrite map_map, map2_seq. change rd_n with 2048%nat. change rd_dk with (1 / (INR 2048 * (5 / 1000))).
      set (N := 2048%nat) in *. set (h := 1 / (INR N * (5 / 1000))).
      assert (HN : 0 < INR N) by (apply lt_0_INR; unfold N; lia).
      assert (Hh : 0 < h) by (unfold h; apply Rdiv_lt_0_compat; [lra|apply Rmult_lt_0_compat; lra]).
      change Rsum with total. f_equal. unfold Rdiv at 1. rewrite <- total_scale_r. f_equal.
      apply map_ext_in. intros i Hi. apply in_seq in Hi. assert (Hi0 : 0 < INR i) by (apply lt_0_INR; lia).
      assert (Hk : 0 < INR i * h) by (apply Rmult_lt_0_compat; assumption).
      assert (ET : spherical_FT (map (fun r0 => cc r0 phi) rd_r) rd_r rd_dr (INR i * h)
                   = transform3 N (5 / 1000) (fun r0 => cc r0 phi) (INR i * h)).
      { set (k := INR i * h) in *. unfold spherical_FT, transform3, grid_sum, rd_r. change rd_n with N. change rd_dr with (5 / 1000).
        rewrite map_map, map2_seq. change Rsum with total.
        match goal with |- 4 * PI * ?X / k = _ => replace (4 * PI * X / k) with (4 * PI / k * X) by (field; lra) end.
        rewrite <- total_scale_l. f_equal.
        apply map_ext_in. intros j Hj. apply in_seq in Hj. assert (Hj0 : 0 < INR j) by (apply lt_0_INR; lia).
        unfold sinc. field. repeat split; try lra. }
      rewrite ET. set (c := transform3 N (5 / 1000) (fun r0 => cc r0 phi) (INR i * h)).
      unfold ornstein_zernike. replace (6 / PI * phi) with (6 * phi / PI) by (field; pose proof PI_RGT_0; lra).
      set (q := c / (1 - 6 * phi / PI * c)). unfold sinc. field. split; lra.
    + unfold rd_r. apply in_map_iff. exists n. split; [reflexivity|]. apply in_seq. unfold rd_n. lia.
Qed.
Print Assumptions C122_beyond_contact.

(** A spline as the theorem wants it exists (here: a look-up table). *)
Fixpoint lookup_curve (pts : list (R * R)) (r : R) : R :=
  match pts with [] => 0 | (x, v) :: t => if Reqb x r then v else lookup_curve t r end.
Lemma lookup_through pts : NoDup (map fst pts) -> through (lookup_curve pts) pts.
Proof.
  induction pts as [|[x v] pts IH]; intros Hn r w Hin; [destruct Hin|]. cbn [map fst] in Hn. inversion_clear Hn.
  cbn [lookup_curve]. destruct Hin as [E|Hin].
  - injection E as -> ->. rewrite (proj2 (Reqb_true r r)) by reflexivity. reflexivity.
  - destruct (Reqb x r) eqn:E; [|now apply IH]. apply Reqb_true in E. subst r. exfalso. apply H.
    change x with (fst (x, w)). now apply in_map.
Qed.
Example C122_hard_core_case : radial_dist_py lookup_curve (1 / 2) [INR 100 * (5 / 1000)] = [0].
Proof. apply C122_hard_core; [exact lookup_through|lia|]. rewrite INR_IZR_INZ. cbn. lra. Qed.

(** The phase factor: for non-negative g its modulus is largest at qd = 0. *)
Lemma trap_abs y z x : ascending x -> Forall2 (fun a b => Rabs a <= b) y z -> Rabs (trapezoid y x) <= trapezoid z x.
Proof.
  intros Hx Hyz. assert (Hd : forall a b, Rabs a <= b -> 0 <= b - a /\ 0 <= b + a).
  { intros a b H. pose proof (Rle_abs a). pose proof (Rle_abs (- a)). rewrite Rabs_Ropp in H1. lra. }
  apply Rabs_le. revert x Hx. induction Hyz as [|a b y z H1 H IH]; intros x Hx; [destruct x; cbn; lra|].
  destruct x as [|x0 [|x1 x]].
  - cbn. lra.
  - destruct y, z; cbn; lra.
  - destruct y as [|a' y]; destruct z as [|b' z]; try (inversion H; fail); [cbn; lra|].
    change (trapezoid (a :: a' :: y) (x0 :: x1 :: x)) with ((x1 - x0) * (a + a') / 2 + trapezoid (a' :: y) (x1 :: x)).
    change (trapezoid (b :: b' :: z) (x0 :: x1 :: x)) with ((x1 - x0) * (b + b') / 2 + trapezoid (b' :: z) (x1 :: x)).
    pose proof (ascending_head _ _ _ Hx) as Hx0. specialize (IH (x1 :: x) (ascending_tail _ _ Hx)).
    inversion_clear H. apply Hd in H1. apply Hd in H0. nra.
Qed.
Theorem C122_phase_factor_bound (j0 : R -> R) g r_d phi qd :
  (forall t, Rabs (j0 t) <= 1) -> j0 0 = 1 -> 0 <= phi -> ascending r_d -> Forall (fun x => 0 <= x) g -> length g = length r_d ->
  Rabs (phase_factor j0 g r_d phi qd) <= phase_factor j0 g r_d phi 0.
Proof.
  intros Hj Hj0 Hphi Hr Hg Hl. unfold phase_factor. apply trap_abs; [exact Hr|]. clear Hr.
  revert g Hg Hl. induction r_d as [|r r_d IH]; intros [|x g] Hg Hl; try discriminate Hl; [constructor|].
  inversion_clear Hg. cbn [map map2]. constructor; [|apply IH; auto].
  rewrite Rmult_0_l, Hj0. specialize (Hj (qd * r)). pose proof PI_RGT_0.
  set (A := 3 * phi / (4 * PI) * 4 * PI * r ^ 2 * PI).
  assert (HA : 0 <= A).
  { unfold A. replace (3 * phi / (4 * PI) * 4 * PI * r ^ 2 * PI) with (3 * PI * (phi * r ^ 2)) by (field; lra).
    apply Rmult_le_pos; [lra|]. apply Rmult_le_pos; [exact Hphi|apply pow2_ge_0]. }
  rewrite !Rabs_mult, (Rabs_pos_eq A) by exact HA. rewrite (Rabs_pos_eq x) by exact H. apply Rmult_le_compat_r; [exact H|]. apply Rmult_le_compat_l; assumption.
Qed.
Print Assumptions C122_phase_factor_bound.

(** What it is at qd = 0: pi/8 times the number of neighbours
    (4 pi rho d^3) Int r^2 g(r) dr, where rho d^3 = 6 phi / pi is the density of
    particles of unit diameter that [radial_dist_py] uses. *)
Theorem C122_phase_factor_zero (j0 : R -> R) (g : R -> R) r_d phi :
  j0 0 = 1 ->
  phase_factor j0 (map g r_d) r_d phi 0
  = PI / 8 * trapezoid (map (fun r => 4 * PI * (6 * phi / PI) * r ^ 2 * g r) r_d) r_d.
Proof.
  intros Hj. unfold phase_factor. rewrite map2_seq_R. rewrite <- trapezoid_scale, map_map. f_equal.
  apply map_ext. intros r. rewrite Rmult_0_l, Hj. pose proof PI_RGT_0. field. lra.
Qed.
Print Assumptions C122_phase_factor_zero.
Example C122_phase_factor_case : Rabs (phase_factor cos [0; 1; 2] [0; 1; 2] (1 / 2) 3) <= phase_factor cos [0; 1; 2] [0; 1; 2] (1 / 2) 0.
Proof.
  apply C122_phase_factor_bound; [|apply cos_0|lra| | |reflexivity].
  - intros t. apply Rabs_le, COS_bound.
  - intros [|[|i]] Hi; cbn [nth length] in *; try lra; lia.
  - constructor; [lra|constructor; [lra|constructor; [lra|constructor]]].
Qed.

Example C122_beyond_case : exists v, radial_dist_py lookup_curve (3 / 10) [INR 400 * (5 / 1000)] = [1 + v].
Proof.
  eexists. apply C122_beyond_contact.
  - exact lookup_through.
  - lia.
  - rewrite INR_IZR_INZ. cbn. lra.
Qed.
