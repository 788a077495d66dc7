(** C154, C155: Trajectory.scatter (structcol/montecarlo.py:191-237) turns
    directions about the fixed y and z axes instead of in the local frame of
    its documentation (C13).  Which averages are right all the same, and which
    are not.  Vocabulary in Spec_local.v and Spec_mean.v. *)
From Coq Require Import Lra Lia Psatz Reals List.
From Verif Require Import Num Spec Spec_mean Spec_local Spec_detector M_init M_montecarlo M_detector M_simulation
  L_num L_mean L_periodic L_local L_local2 Properties_detector Properties_fieldflow.
Import ListNotations.
Open Scope R_scope.

Lemma scattered_fun k n ang : scattered k n ang = map (scat_dir k ang) (seq 0 (S n)).
Proof. unfold scattered. now rewrite scatter_fun. Qed.
Lemma locally_fun f n ang : scattered_locally f n ang = map (fun j => fr_dir (fr f ang j)) (seq 0 (S n)).
Proof. unfold scattered_locally. change (local_dirs f) with (local_dirs (fr f ang 0)). rewrite local_dirs_fun. reflexivity. Qed.
Lemma nth_seq {A} (g : nat -> A) d n j : (j <= n)%nat -> nth j (map g (seq 0 (S n))) d = g j.
Proof.
  intros H. rewrite (nth_indep _ d (g 0%nat)) by (rewrite map_length, seq_length; lia). rewrite (map_nth g), seq_nth by lia. reflexivity.
Qed.

(** Scattering in the local frame: the new direction makes the polar angle
    theta with the old one, at azimuth phi. *)
Theorem C154_local_frame : forall f theta phi, orthonormal f ->
  orthonormal (turn_frame f theta phi)
  /\ dot (fr_dir (turn_frame f theta phi)) (fr_dir f) = cos theta
  /\ dot (fr_dir (turn_frame f theta phi)) (fr_1 f) = sin theta * cos phi
  /\ dot (fr_dir (turn_frame f theta phi)) (fr_2 f) = sin theta * sin phi.
Proof. intros f t p H. split; [now apply turn_orthonormal|now apply turn_angles]. Qed.
Print Assumptions C154_local_frame.

(** C154.  One trajectory that enters at polar angle [theta0] and uniform
    azimuth, scattered [n] times at any polar angles [th] and uniform
    azimuths: any function of all the z components of its directions has the
    same mean under scatter and under scattering in local frames (launched at
    any azimuth [phi0]). *)
Theorem C154_heights : forall n theta0 phi0 th (g : list R -> R) m,
  is_mean (S n) (fun t => g (map vz (scattered (direction theta0 (2 * PI * t 0%nat)) n (fun j => (th j, 2 * PI * t (S j)))))) m
  <-> is_mean (S n) (fun t => g (map vz (scattered_locally (turn_frame lab theta0 phi0) n (fun j => (th j, 2 * PI * t j))))) m.
Proof.
  intros n t0 phi0 th g m. set (f := turn_frame lab t0 phi0).
  set (Phi := fun u => g (map (canon (cos t0) th u) (seq 0 (S n)))).
  assert (X : forall u u', (forall k, (k < S n)%nat -> cos (2 * PI * u k) = cos (2 * PI * u' k)) -> Phi u = Phi u').
  { intros u u' H. unfold Phi. f_equal. apply map_ext_in. intros j Hj. apply in_seq in Hj. apply canon_ext. intros q Hq. apply H. lia. }
  assert (HD : dep (S n) Phi) by (intros t t' E; apply X; intros k Hk; now rewrite E).
  assert (HP : periodic (S n) Phi).
  { intros t k Hk. apply X. intros q Hq. destruct (Nat.eq_dec q k) as [->|Hne]; [|now rewrite upd_other by exact Hne].
    rewrite upd_same. replace (2 * PI * (t k + 1)) with (2 * PI * t k + 2 * PI) by ring. rewrite cos_plus, cos_2PI, sin_2PI. ring. }
  set (a := fun (k : nat) (t : nat -> R) => code_shift t0 th (fun q => 2 * PI * t q) k).
  set (b := fun (k : nat) (t : nat -> R) => local_shift f (fun j => (th j, 2 * PI * t j)) k).
  assert (Ca : causal a).
  { intros k t t' H. unfold a, code_shift. rewrite (pre_ext _ _ _ (fun q => 2 * PI * t' q)); [reflexivity|]. intros q Hq. now rewrite H. }
  assert (Cb : causal b).
  { intros k t t' H. unfold b, local_shift. rewrite (fr_ext _ _ (fun q => (th q, 2 * PI * t' q))); [reflexivity|]. intros q Hq. now rewrite H. }
  assert (EA : forall t, g (map vz (scattered (direction t0 (2 * PI * t 0%nat)) n (fun j => (th j, 2 * PI * t (S j))))) = Phi (shifted a t)).
  { intros t. unfold Phi. f_equal. rewrite scattered_fun, map_map. apply map_ext. intros j.
    replace (direction t0 (2 * PI * t 0%nat)) with (kc t0 th (fun q => 2 * PI * t q) 0).
    - rewrite <- (kc_scat t0 th (fun q => 2 * PI * t q)). apply (kc_canon t0 th t).
    - cbn [kc]. unfold scatter1, direction. cbn [vx vy vz]. apply (f_equal2 pair); [apply (f_equal2 pair)|]; ring. }
  assert (EB : forall t, g (map vz (scattered_locally f n (fun j => (th j, 2 * PI * t j)))) = Phi (shifted b t)).
  { intros t. unfold Phi. f_equal. rewrite locally_fun, map_map. apply map_ext. intros j.
    rewrite (fr_canon f th t) by apply turn_row, lab_row.
    assert (E0 : vz (fr_dir f) = cos t0) by (unfold f, turn_frame, lab, fr_1, fr_2, fr_dir, vadd, vscale; cbn [fst snd vx vy vz]; ring).
    rewrite E0. reflexivity. }
  pose proof (triangular _ _ _ m HD HP Ca) as A. pose proof (triangular _ _ _ m HD HP Cb) as B. cbv beta in A, B. split; intros H.
  - apply (is_mean_ext _ (fun t => Phi (shifted b t))); [intros t; now rewrite EB|]. apply B, A. revert H. apply is_mean_ext, EA.
  - apply (is_mean_ext _ (fun t => Phi (shifted a t))); [intros t; now rewrite EA|]. apply A, B. revert H. apply is_mean_ext, EB.
Qed.
Print Assumptions C154_heights.

(** Whole calculations on a film (no goniometer, no re-runs): the launch
    azimuths uniform over the full turn, which includes normal incidence.
    Whatever is computed from the result of the calculation, its mean over all
    azimuths is the one of the calculation with local frames, for any polar
    angles, steps and other draws. *)
Theorem C154_film_law : forall nevents ntraj spot tmin tmax mu_scat P D entry azimuth (g : result (option outcome) -> R) m,
  (0 < nevents)%nat ->
  p_boundary P = film -> p_run P = false -> p_gonio P = None ->
  (forall i, (i < ntraj)%nat ->
     refraction (uniform tmin tmax (d_l2 D i)) (Rabs (p_nmedium P)) (Rabs (p_nsample P)) = Some (entry i)) ->
  is_mean (nevents * ntraj)
    (fun t => g (film_run nevents ntraj spot tmin tmax 0 (2 * PI) mu_scat P (with_azimuths nevents t D))) m
  <-> is_mean (nevents * ntraj)
    (fun t => g (local_film_run nevents ntraj entry azimuth mu_scat P D (local_azimuths nevents t D))) m.
Proof. intros nev ntraj spot tmin tmax mu P D t0 phi0 g m Hn Hb Hr Hg Ht. now apply same_law. Qed.
Print Assumptions C154_film_law.

(** The hypotheses hold for the calculation of C152_case. *)
Example C154_case : (0 < 2)%nat /\ p_boundary ex_film = film /\ p_run ex_film = false /\ p_gonio ex_film = None
  /\ (forall i, (i < 1)%nat -> refraction (uniform 0 0 (d_l2 back_draws i)) (Rabs (p_nmedium ex_film)) (Rabs (p_nsample ex_film)) = Some 0).
Proof.
  split; [lia|]. split; [reflexivity|]. split; [reflexivity|]. split; [reflexivity|]. intros i _.
  replace (uniform 0 0 (d_l2 back_draws i)) with 0 by (unfold uniform; ring).
  unfold refraction. rewrite sin_0, Rmult_0_r, Rabs_R0, (proj2 (Rltb_false 1 0)) by lra. now rewrite asin_0.
Qed.

(** C155.  Directions of a trajectory that starts along +z, scattered [n] times
    at polar angles [th] and uniform azimuths.  The mean of the j-th direction
    is right: along +z, the product of the cosines of the first j polar
    angles. *)
Theorem C155_mean_direction : forall th n j, (j <= n)%nat ->
  let dir t j := nth j (scattered (0, 0, 1) n (fun i => (th i, 2 * PI * t i))) vzero in
  is_mean n (fun t => vz (dir t j)) (fold_right Rmult 1 (map (fun i => cos (th i)) (seq 0 j)))
  /\ is_mean n (fun t => vx (dir t j)) 0 /\ is_mean n (fun t => vy (dir t j)) 0.
Proof.
  intros th n j Hj dir. assert (E : forall t, dir t j = D0 th t j) by (intros t; unfold dir; rewrite scattered_fun; apply nth_seq, Hj).
  replace n with ((n - j) + j)%nat by lia. destruct (mean_direction th j) as (Z & X & Y).
  split; [|split].
  - apply (is_mean_ext _ (fun t => vz (D0 th t j))); [intros t; now rewrite E|]. apply mean_more; [apply (dep_comp th j vz)|exact Z].
  - apply (is_mean_ext _ (fun t => vx (D0 th t j))); [intros t; now rewrite E|]. apply mean_more; [apply (dep_comp th j vx)|exact X].
  - apply (is_mean_ext _ (fun t => vy (D0 th t j))); [intros t; now rewrite E|]. apply mean_more; [apply (dep_comp th j vy)|exact Y].
Qed.
Print Assumptions C155_mean_direction.

(** What the cosine between the directions i and i+d should be on average (it
    is the product of the cosines of the polar angles in between). *)
Theorem C155_local_cosine : forall f th n i d, orthonormal f -> (i + d <= n)%nat ->
  let dir t j := nth j (scattered_locally f n (fun i => (th i, 2 * PI * t i))) vzero in
  (forall t, (i + 1 <= n)%nat -> dot (dir t (i + 1)%nat) (dir t i) = cos (th i))
  /\ is_mean n (fun t => dot (dir t (i + d)%nat) (dir t i)) (fold_right Rmult 1 (map (fun i => cos (th i)) (seq i d))).
Proof.
  intros f th n i d Hf Hd dir. assert (E : forall t j, (j <= n)%nat -> dir t j = fr_dir (L0 f th t j)) by (intros t j Hj; unfold dir; rewrite locally_fun; exact (nth_seq (fun j => fr_dir (fr f (fun i => (th i, 2 * PI * t i)) j)) vzero n j Hj)).
  split.
  - intros t Hi. rewrite !E by lia. rewrite Nat.add_1_r. apply (turn_angles (L0 f th t i) (th i) (2 * PI * t i)), L0_ok, Hf.
  - apply (is_mean_ext _ (fun t => dot (fr_dir (L0 f th t (i + d))) (fr_dir (L0 f th t i)))); [intros t; rewrite !E by lia; reflexivity|].
    replace n with ((n - (i + d)) + (i + d))%nat by lia. apply mean_more; [|apply (local_corr f th i d Hf)].
    intros t t' H. rewrite (L0_ext f th t t' (i + d)) by exact H. rewrite (L0_ext f th t t' i) by (intros; apply H; lia). reflexivity.
Qed.
Print Assumptions C155_local_cosine.

(** What it is under scatter: smaller by the factor [q i], the mean square of
    the z component of direction i, which is below 1 as soon as one of the
    first i scatterings turned the direction. *)
Theorem C155_cosine_refuted : forall th, exists q : nat -> R,
  q 0%nat = 1 /\ (forall j, q (S j) = q j * cos (th j) ^ 2 + (1 - q j) / 2 * sin (th j) ^ 2)
  /\ (forall j, 0 <= q j <= 1) /\ (forall i j, (i < j)%nat -> sin (th i) <> 0 -> q j < 1)
  /\ forall n i d, (0 < d)%nat -> (i + d <= n)%nat ->
     let dir t j := nth j (scattered (0, 0, 1) n (fun i => (th i, 2 * PI * t i))) vzero in
     is_mean n (fun t => vz (dir t i) ^ 2) (q i)
     /\ is_mean n (fun t => dot (dir t (i + d)%nat) (dir t i)) (fold_right Rmult 1 (map (fun i => cos (th i)) (seq i d)) * q i).
Proof.
  intros th. exists (zz th). split; [reflexivity|]. split; [reflexivity|]. split; [apply zz_range|]. split.
  { intros i j Hi Hs. apply zz_below; [lia|]. now exists i. }
  intros n i d Hd Hn dir. assert (E : forall t j, (j <= n)%nat -> dir t j = D0 th t j) by (intros t j Hj; unfold dir; rewrite scattered_fun; apply nth_seq, Hj).
  split.
  - apply (is_mean_ext _ (fun t => vz (D0 th t i) ^ 2)); [intros t; now rewrite E by lia|]. replace n with ((n - i) + i)%nat by lia.
    apply mean_more; [apply (dep_comp th i (fun k => vz k ^ 2))|apply mean_xx].
  - apply (is_mean_ext _ (fun t => dot (D0 th t (i + d)) (D0 th t i))); [intros t; now rewrite !E by lia|]. replace n with ((n - (i + d)) + (i + d))%nat by lia.
    apply mean_more; [|now apply mean_corr].
    intros t t' H. rewrite (D0_ext th t t' (i + d)) by exact H. rewrite (D0_ext th t t' i) by (intros; apply H; lia). reflexivity.
Qed.
Print Assumptions C155_cosine_refuted.

(** Light launched obliquely at a fixed azimuth: after the first scattering
    its z component is not random at all, and not the mean it should have. *)
Theorem C155_fixed_azimuth_refuted : forall theta0 phi0 theta1,
  (forall phi1, vz (nth 1 (scattered (direction theta0 phi0) 1 (fun _ => (theta1, phi1))) vzero)
     = cos theta0 * cos theta1 - sin theta0 * cos phi0 * sin theta1)
  /\ is_mean 1 (fun t => vz (nth 1 (scattered_locally (turn_frame lab theta0 phi0) 1 (fun _ => (theta1, 2 * PI * t 0%nat))) vzero))
       (cos theta0 * cos theta1).
Proof.
  intros a b c. split.
  - intros p. rewrite scattered_fun. cbn [seq map nth scat_dir fst snd]. unfold scatter1, direction. cbn [vx vz]. ring.
  - assert (E : cos a * cos c = vz (fr_dir (turn_frame lab a b)) * cos c) by (unfold turn_frame, lab, fr_1, fr_2, fr_dir, vadd, vscale; cbn [fst snd vx vy vz]; ring).
    rewrite E. apply fixed_azimuth_local. apply turn_orthonormal, lab_ok.
Qed.
Print Assumptions C155_fixed_azimuth_refuted.

(** After two turns by 60 degrees the mean cosine between the first two
    directions is 1/8, not 1/2. *)
Example C155_case : orthonormal lab
  /\ is_mean 2 (fun t => dot (nth 2 (scattered (0, 0, 1) 2 (fun i => (PI / 3, 2 * PI * t i))) vzero)
                             (nth 1 (scattered (0, 0, 1) 2 (fun i => (PI / 3, 2 * PI * t i))) vzero)) (1 / 8).
Proof.
  split; [apply lab_ok|]. destruct (C155_cosine_refuted (fun _ => PI / 3)) as (q & q0 & qS & _ & _ & H).
  destruct (H 2%nat 1%nat 1%nat ltac:(lia) ltac:(lia)) as (_ & M).
  assert (E : fold_right Rmult 1 (map (fun _ : nat => cos (PI / 3)) (seq 1 1)) * q 1%nat = 1 / 8).
  { cbn [seq map fold_right]. rewrite qS, q0, cos_PI3. field. }
  rewrite E in M. exact M.
Qed.
