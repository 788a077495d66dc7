(** The material lookup [n] and the rounding in its 'data' branch. *)
From Coq Require Import Lra Lia Psatz.
From Coquelicot Require Import Rcomplements.
From Verif Require Import L_num M_refractive_index Spec_optics L_interp L_cargille L_dispersion.
Open Scope R_scope.

Lemma round_half_even_err : forall x, Rabs (IZR (round_half_even x) - x) <= 1 / 2.
Proof.
  intros x. unfold round_half_even, floorZ. cbv zeta.
  pose proof (Int_part_spec x) as H.
  destruct (Rltb (x - IZR (Int_part x)) (1 / 2)) eqn:E1.
  - apply Rltb_true in E1. apply Rabs_le. lra.
  - apply Rltb_false in E1. destruct (Rltb (1 / 2) (x - IZR (Int_part x))) eqn:E2.
    + rewrite plus_IZR. apply Rltb_true in E2. apply Rabs_le. lra.
    + apply Rltb_false in E2. destruct (Z.even (Int_part x)).
      * apply Rabs_le. lra.
      * rewrite plus_IZR. apply Rabs_le. lra.
Qed.

Lemma Int_part_IZR : forall n, Int_part (IZR n) = n.
Proof.
  intros n. pose proof (Int_part_spec (IZR n)) as [H1 H2].
  apply le_IZR in H1. rewrite <- plus_IZR in H2. apply lt_IZR in H2. lia.
Qed.

Lemma round_half_even_IZR : forall n, round_half_even (IZR n) = n.
Proof.
  intros n. unfold round_half_even, floorZ. rewrite Int_part_IZR. cbv zeta.
  rewrite (proj2 (Rltb_true _ _)) by lra. reflexivity.
Qed.

Lemma round2_err : forall x, Rabs (round2 x - x) <= 0.005.
Proof.
  intros x. unfold round2. pose proof (round_half_even_err (100 * x)) as H.
  apply Rabs_le_between in H. apply Rabs_le_between. lra.
Qed.

Lemma round2_hundredth : forall k, round2 (IZR k / 100) = IZR k / 100.
Proof.
  intros k. unfold round2. replace (100 * (IZR k / 100)) with (IZR k) by field.
  rewrite round_half_even_IZR. reflexivity.
Qed.

Lemma round2_unique : forall x k, Rabs (100 * x - IZR k) < 1 / 2 -> round2 x = IZR k / 100.
Proof.
  intros x k H. unfold round2. f_equal. f_equal.
  pose proof (round_half_even_err (100 * x)) as E.
  apply Rabs_le_between in E. apply Rabs_lt_between in H.
  assert (A : IZR (round_half_even (100 * x) - k) < IZR 1) by (rewrite minus_IZR; lra).
  assert (B : IZR (-1) < IZR (round_half_even (100 * x) - k)) by (rewrite minus_IZR; lra).
  apply lt_IZR in A, B. lia.
Qed.

Lemma n_data_missing : forall w id wd, id = None \/ wd = None ->
  n_material "data" w id wd = Err KeyError.
Proof.
  intros w id wd [-> | ->]; cbn; [reflexivity|]. destruct id; reflexivity.
Qed.

Lemma n_unknown : forall m w id wd, m <> "data"%string -> ~ In m (map fst n_dict) ->
  n_material m w id wd = Err KeyError.
Proof.
  intros m w id wd H1 H2. unfold n_material.
  rewrite (proj2 (String.eqb_neq _ _) H1). rewrite dict_get_notin by assumption. reflexivity.
Qed.

Lemma dict_get_here : forall {A} k (d : list (string * A)) v,
  NoDup (map fst d) -> In (k, v) d -> dict_get k d = Ok v.
Proof.
  intros A k d v. induction d as [|[k' v'] d IH]; cbn; [contradiction|]. intros ND [E|I].
  - injection E as -> ->. rewrite String.eqb_refl. reflexivity.
  - inversion ND; subst. destruct (String.eqb_spec k k') as [->|N]; [|auto].
    exfalso. apply H1. apply (in_map fst) in I. exact I.
Qed.

Lemma n_dict_nodup : NoDup (map fst n_dict).
Proof. repeat constructor; cbn; intuition discriminate. Qed.

Lemma n_known : forall m f w id wd, In (m, f) n_dict -> n_material m w id wd = Ok (f w).
Proof.
  intros m f w id wd H. unfold n_material.
  assert (m <> "data"%string).
  { intros ->. apply (in_map fst) in H. cbn in H. intuition discriminate. }
  rewrite (proj2 (String.eqb_neq _ _) H0).
  rewrite (dict_get_here m n_dict f n_dict_nodup H). reflexivity.
Qed.

Lemma n_dict_good : forall m f, In (m, f) n_dict ->
  sane f /\ (m <> "vacuum"%string -> normal_dispersion f).
Proof.
  assert (V : sane n_vacuum).
  { intros w Hw. exists 1. split; [|lra]. apply vacuum_one. unfold visible in Hw. lra. }
  intros m f H. cbn in H.
  repeat match goal with H : _ \/ _ |- _ => destruct H as [H|H] end;
    try contradiction; injection H as <- <-.
  - split; [|intros _]; apply water_good.
  - split; [|intros _]; apply polystyrene_good.
  - split; [|intros _]; apply pmma_good.
  - split; [|intros _]; apply rutile_good.
  - split; [|intros _]; apply fused_silica_good.
  - split; [|intros _]; apply soda_lime_good.
  - split; [|intros _]; apply zirconia_good.
  - split; [|intros _]; apply ethanol_good.
  - split; [assumption | congruence].
  - split; [|intros _]; apply brookite_good.
  - split; [|intros _]; apply anatase_good.
Qed.

Lemma n_data_value : forall xs ys unit w i,
  length ys = length xs -> increasing (combine xs ys) ->
  (S i < length xs)%nat ->
  nth i xs 0 <= round2 (w / unit) <= nth (S i) xs 0 ->
  n_material "data" w (Some ys) (Some (xs, unit)) =
  Ok (Some (chord (nth i xs 0, nth i ys 0) (nth (S i) xs 0, nth (S i) ys 0)
                  (round2 (w / unit)))).
Proof.
  intros xs ys unit w i L Hinc Hi Hr. unfold n_material.
  rewrite (String.eqb_refl "data"). rewrite (proj2 (Nat.eqb_eq _ _) L).
  assert (LC : length (combine xs ys) = length xs) by (rewrite combine_length; lia).
  rewrite (interp_linear_chord (combine xs ys) i).
  - rewrite !combine_nth by lia. reflexivity.
  - assumption.
  - lia.
  - rewrite !combine_nth by lia. exact Hr.
Qed.

Lemma n_data_out : forall xs ys unit w,
  length ys = length xs -> xs <> [] ->
  (round2 (w / unit) < nth 0 xs 0 \/ nth (length xs - 1) xs 0 < round2 (w / unit)) ->
  n_material "data" w (Some ys) (Some (xs, unit)) = Err ValueError.
Proof.
  intros xs ys unit w L Hn Hr. unfold n_material.
  rewrite (String.eqb_refl "data"). rewrite (proj2 (Nat.eqb_eq _ _) L).
  assert (LC : length (combine xs ys) = length xs) by (rewrite combine_length; lia).
  rewrite interp_linear_outside; [reflexivity| |].
  - intros K. rewrite K in LC. destruct xs; [congruence | discriminate].
  - rewrite LC, !combine_nth by lia. exact Hr.
Qed.

(** A wavelength inside the data whose index is not the interpolated one. *)
Lemma n_data_rounds : exists xs ys w v,
  increasing (combine xs ys) /\ nth 0 xs 0 <= w <= nth 1 xs 0 /\
  n_material "data" w (Some ys) (Some (xs, 1)) = Ok (Some v) /\
  v <> chord (nth 0 xs 0, nth 0 ys 0) (nth 1 xs 0, nth 1 ys 0) w.
Proof.
  exists [0.4; 0.6], [1.5; 1.7], 0.504, (chord (0.4, 1.5) (0.6, 1.7) 0.5).
  split; [|split; [|split]].
  - intros [|[|i]] Hi; cbn in *; try lra; lia.
  - cbn [nth]. lra.
  - assert (R5 : round2 (0.504 / 1) = 0.5).
    { rewrite (round2_unique _ 50); [lra|]. apply Rabs_def1; lra. }
    rewrite (n_data_value [0.4; 0.6] [1.5; 1.7] 1 0.504 0).
    + rewrite R5. reflexivity.
    + reflexivity.
    + intros [|[|i]] Hi; cbn in *; try lra; lia.
    + cbn; lia.
    + rewrite R5. cbn [nth]. lra.
  - unfold chord; cbn [nth fst snd]. lra.
Qed.

(** A wavelength equal to the first data point that raises. *)
Lemma n_data_rejects : exists xs ys w,
  increasing (combine xs ys) /\ nth 0 xs 0 <= w <= nth 1 xs 0 /\
  length ys = length xs /\
  n_material "data" w (Some ys) (Some (xs, 1)) = Err ValueError.
Proof.
  exists [0.404; 0.6], [1.5; 1.7], 0.404.
  split; [|split; [|split]].
  - intros [|[|i]] Hi; cbn in *; try lra; lia.
  - cbn [nth]. lra.
  - reflexivity.
  - apply n_data_out; [reflexivity | discriminate |].
    left. rewrite (round2_unique _ 40); [cbn [nth]; lra|]. apply Rabs_def1; lra.
Qed.
