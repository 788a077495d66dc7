(** C109, second part: the angle that a totally reflected trajectory gets. *)
From Coq Require Import Lra Lia Reals List ZArith.
From Verif Require Import Num Spec L_num Spec_fields M_montecarlo M_detector M_fields L_fields L_exits.
From Coquelicot Require Import Complex.
Import ListNotations.
Open Scope R_scope.

(** A trajectory whose first total reflection is at event e (counted from 0;
    its direction there is made by polar angle number e - 1, and the mirror
    turns it by pi - 2 acos kz).  The angle number e - 1 of that trajectory is
    replaced by the polar angle number e - 2 turned by the mirror; azimuths
    stay. *)
Theorem C109_own_angle : forall amp n_sample wavelen trs fss angs i t e,
  calc_fields amp n_sample wavelen true trs = Ok (fss, angs) -> nth_error trs i = Some t -> first_true (ft_tir t) e ->
  let previous := match e with S (S r) => fst (nth r (ft_angles t) (0, 0)) | _ => 0 end in
  let mirrored := previous + (PI - 2 * acos (vz (nth e (ft_dirs t) vzero))) in
  let ph := snd (nth (pred e) (ft_angles t) (0, 0)) in
  nth (pred e) (nth i angs []) (0, 0, 0, 0) = (cos mirrored, sin mirrored, cos ph, sin ph).
Proof.
  intros amp n lam trs fss angs i t e H Hi He previous mirrored ph.
  destruct (calc_fields_tir _ _ _ _ _ _ _ _ H Hi) as [E L].
  assert (Ea : argmax_padded (ft_tir t) = S e) by (apply argmax_padded_first, He).
  assert (Er : tir_row t = pred e) by (unfold tir_row; rewrite Ea; lia).
  assert (Hr : (pred e < length (ft_angles t))%nat) by (specialize (L t (nth_error_In _ _ Hi)); lia).
  assert (Et : tir_angle t = mirrored).
  { unfold tir_angle, mirrored. rewrite Ea. 
    assert (S1 : select_z (map vz (ft_dirs t)) (Z.of_nat (S e)) = vz (nth e (ft_dirs t) vzero)).
    { unfold select_z. replace (Z.of_nat (S e) <=? 0)%Z with false by (symmetry; apply Z.leb_gt; lia).
      replace (Z.to_nat (Z.of_nat (S e) - 1)) with e by lia. exact (map_nth vz (ft_dirs t) vzero e). }
    assert (S2 : select_z (map fst (ft_angles t)) (Z.of_nat (S e) - 2) = previous).
    { unfold select_z, previous. destruct e as [|[|r]]; [reflexivity|reflexivity|].
      replace (Z.of_nat (S (S (S r))) - 2 <=? 0)%Z with false by (symmetry; apply Z.leb_gt; lia).
      replace (Z.to_nat (Z.of_nat (S (S (S r))) - 2 - 1)) with r by lia. exact (map_nth fst (ft_angles t) (0, 0) r). }
    cbv zeta. rewrite S1, S2. field. }
  set (a := nth (pred e) (ft_angles t) (0, 0)).
  assert (N : nth (pred e) (map trig (ft_angles t)) (0, 0, 0, 0) = (cos (fst a), sin (fst a), cos (snd a), sin (snd a))).
  { rewrite (nth_indep (map trig (ft_angles t)) _ (trig (0, 0))) by (rewrite map_length; exact Hr). rewrite map_nth. fold a. destruct a; reflexivity. }
  rewrite E, (overwrite_nth _ _ _ _ _ _ _ _ ltac:(rewrite map_length; exact Hr) N), Et.
  replace (existsb (Nat.eqb (pred e)) (map tir_row trs)) with true; [reflexivity|].
  symmetry. apply existsb_exists. exists (pred e). split; [|apply Nat.eqb_refl].
  rewrite <- Er. apply in_map. now apply nth_error_In in Hi.
Qed.
Print Assumptions C109_own_angle.

(** The angle that made the direction is number e - 1, so the direction after
    the mirror is only right when the two angles agree modulo 2 pi. *)
Theorem C109_own_angle_refuted : forall amp n_sample wavelen trs fss angs i t r,
  calc_fields amp n_sample wavelen true trs = Ok (fss, angs) -> nth_error trs i = Some t -> first_true (ft_tir t) (S (S r)) ->
  let th j := fst (nth j (ft_angles t) (0, 0)) in
  let mirrored := th (S r) + (PI - 2 * acos (vz (nth (S (S r)) (ft_dirs t) vzero))) in
  let ph := snd (nth (S r) (ft_angles t) (0, 0)) in
  nth (S r) (nth i angs []) (0, 0, 0, 0) = (cos mirrored, sin mirrored, cos ph, sin ph)
  <-> exists m : Z, th r = th (S r) + 2 * PI * IZR m.
Proof.
  intros amp n lam trs fss angs i t r H Hi He th mirrored ph.
  pose proof (C109_own_angle amp n lam trs fss angs i t (S (S r)) H Hi He) as Q. cbv zeta in Q. cbn [pred] in Q. rewrite Q. clear Q.
  fold (th r). set (q := PI - 2 * acos (vz (nth (S (S r)) (ft_dirs t) vzero))) in *.
  assert (X : cos (th r + q) = cos mirrored /\ sin (th r + q) = sin mirrored <-> exists m : Z, th r + q = mirrored + 2 * PI * IZR m).
  { rewrite <- expi_eq. unfold expi. split; [intros [-> ->]; reflexivity|intros E; injection E; auto]. }
  split.
  - intros E. assert (E2 : cos (th r + q) = cos mirrored /\ sin (th r + q) = sin mirrored) by (split; congruence).
    apply X in E2. destruct E2 as [m Hm]. exists m. unfold mirrored in Hm. lra.
  - intros [m Hm]. destruct (proj2 X) as [-> ->]; [exists m; unfold mirrored; lra|reflexivity].
Qed.
Print Assumptions C109_own_angle_refuted.

(** A trajectory of three events totally reflected at the last one: the call is
    accepted, and its two polar angles differ. *)
Example C109_own_case : exists fss angs,
  let x : field := (RtoC 1, RtoC 0, RtoC 0) in
  let t := mk_ft [(1, 0); (2, 0)] [1; 1; 1] [ez; ez; (0, 1, 0)] [x; x; fzero; fzero] [false; false; true] in
  calc_fields (fun _ _ => (RtoC 1, RtoC 1, RtoC 0, RtoC 0)) (3 / 2) (1 / 2) true [t] = Ok (fss, angs) /\ first_true (ft_tir t) 2
  /\ forall m : Z, 1 <> 2 + 2 * PI * IZR m.
Proof.
  do 2 eexists. cbv zeta. split; [cbv [calc_fields]; cbn; reflexivity|]. split.
  - split; [reflexivity|]. intros [|[|j]] Hj; [reflexivity|reflexivity|lia].
  - intros m Em. assert (Hp : 3 < PI) by (pose proof PI2_3_2; lra).
    assert (A : -1 < IZR m < 0) by nra. change (-1) with (IZR (-1)) in A. change 0 with (IZR 0) in A. destruct A as [A1 A2]. apply lt_IZR in A1, A2. lia.
Qed.
