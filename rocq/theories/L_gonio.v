(** shift_traj_tir (C42) and calc_haze (C44). *)
From Coq Require Import Lra Lia Psatz.
From Verif Require Export L_energy L_geometry.
Open Scope R_scope.

(** What the loop of select_tir_traj computes: a value is negated when the one
    before it is non-zero. *)
Fixpoint flips (prev : R) (col : list R) : list R :=
  match col with
  | [] => []
  | x :: t => (if Reqb prev 0 then x else - x) :: flips x t
  end.

Lemma Reqb_opp x : Reqb (- x) 0 = Reqb x 0.
Proof.
  destruct (Reqb x 0) eqn:E.
  - apply Reqb_true in E. apply Reqb_true. lra.
  - apply Reqb_false in E. apply Reqb_false. lra.
Qed.

Definition preset_like (col out : list R) : Prop :=
  length out = length col /\ forall i, nth i out 0 = 0 \/ nth i out 0 = nth i col 0.

Lemma tir_loop_flips col : forall prev prev' out,
  Reqb prev 0 = Reqb prev' 0 -> preset_like col out -> tir_loop prev col out = flips prev' col.
Proof.
  induction col as [|x col IH]; intros prev prev' [|o out] Hp [Hl Ho]; cbn in *; try lia; auto.
  assert (Hval : (if Reqb (if Reqb prev 0 then o else - x) 0 then x else if Reqb prev 0 then o else - x)
          = (if Reqb prev' 0 then x else - x)).
  { rewrite <- Hp. destruct (Reqb prev 0) eqn:E.
    - destruct (Ho 0%nat) as [H|H]; cbn in H; subst o.
      + replace (Reqb 0 0) with true by (symmetry; now apply Reqb_true). reflexivity.
      + destruct (Reqb x 0) eqn:Ex; reflexivity.
    - rewrite Reqb_opp. destruct (Reqb x 0) eqn:Ex; [|reflexivity].
      apply Reqb_true in Ex. lra. }
  rewrite Hval. f_equal. apply IH.
  - destruct (Reqb prev' 0); [reflexivity|apply Reqb_opp].
  - split; [lia|]. intros i. apply (Ho (S i)).
Qed.

Lemma combine_seq_nth (col : list R) : forall k i, (i < length col)%nat ->
  nth i (combine (seq k (length col)) col) (0%nat, 0) = ((k + i)%nat, nth i col 0).
Proof.
  induction col as [|x col IH]; intros k i Hi; cbn in *; [lia|].
  destruct i as [|i]; [now rewrite Nat.add_0_r|]. rewrite IH by lia. f_equal; lia.
Qed.

Lemma preset_preset_like col ev : preset_like col (preset col ev).
Proof.
  split; [apply preset_length|]. intros i. unfold preset.
  destruct (Nat.lt_ge_cases i (length col)) as [Hi|Hi].
  - rewrite (nth_map_in _ _ i (0%nat, 0)) by (rewrite combine_length, seq_length; lia).
    rewrite combine_seq_nth by exact Hi. destruct (Nat.eqb _ _); auto.
  - left. apply nth_overflow. rewrite map_length, combine_length, seq_length. lia.
Qed.

Lemma select_tir_flips x col ev : select_tir_traj (x :: col) ev = x :: flips x col.
Proof.
  unfold select_tir_traj. destruct (preset_preset_like (x :: col) ev) as [Hl Ho].
  destruct (preset (x :: col) ev) as [|o out]; [discriminate|]. f_equal.
  apply tir_loop_flips; [reflexivity|]. split; [cbn in Hl; lia|]. intros i. apply (Ho (S i)).
Qed.

Lemma select_tir_ignores_event col e1 e2 : select_tir_traj col e1 = select_tir_traj col e2.
Proof. destruct col; [reflexivity|]. now rewrite !select_tir_flips. Qed.

Lemma flips_abs col : forall prev, map Rabs (flips prev col) = map Rabs col.
Proof.
  induction col as [|x col IH]; intros prev; cbn; [reflexivity|]. f_equal; [|apply IH].
  destruct (Reqb prev 0); [reflexivity|apply Rabs_Ropp].
Qed.

Lemma select_tir_abs col ev : map Rabs (select_tir_traj col ev) = map Rabs col.
Proof. destruct col as [|x col]; [reflexivity|]. rewrite select_tir_flips. cbn. now rewrite flips_abs. Qed.

Lemma map2_set_z {A} (g : vec -> A) (l : list vec) : forall m, length l = length m ->
  (forall v z, g (set_z v z) = g v) -> map g (map2 set_z l m) = map g l.
Proof.
  induction l as [|v l IH]; intros [|z m] Hl Hg; cbn in *; try lia; auto.
  rewrite Hg, IH by (lia || assumption). reflexivity.
Qed.
Lemma map2_set_z_vz (l : list vec) : forall m, length l = length m -> map vz (map2 set_z l m) = m.
Proof.
  induction l as [|v l IH]; intros [|z m] Hl; cbn in *; try lia; auto. rewrite IH by lia. reflexivity.
Qed.

(** What shift_traj_tir does keep, and that it ignores the TIR event. *)
Lemma shift_keeps t ev :
  t_w (shift_traj_tir t ev) = t_w t
  /\ map vx (t_pos (shift_traj_tir t ev)) = map vx (t_pos t)
  /\ map vy (t_pos (shift_traj_tir t ev)) = map vy (t_pos t)
  /\ map vx (t_dir (shift_traj_tir t ev)) = map vx (t_dir t)
  /\ map vy (t_dir (shift_traj_tir t ev)) = map vy (t_dir t)
  /\ map (fun p => Rabs (vz p)) (t_pos (shift_traj_tir t ev)) = map (fun p => Rabs (vz p)) (t_pos t)
  /\ map (fun p => Rabs (vz p)) (t_dir (shift_traj_tir t ev)) = map (fun p => Rabs (vz p)) (t_dir t).
Proof.
  unfold shift_traj_tir. cbn [t_pos t_dir t_w].
  assert (L : forall l : list vec, length l = length (select_tir_traj (map vz l) ev)).
  { intros l. now rewrite select_tir_length, map_length. }
  split; [reflexivity|].
  do 4 (split; [apply map2_set_z; [apply L|intros [[a b] c] z; reflexivity]|]).
  split; rewrite <- !(map_map vz Rabs), map2_set_z_vz by apply L; apply select_tir_abs.
Qed.
Lemma shift_ignores_event t e1 e2 : shift_traj_tir t e1 = shift_traj_tir t e2.
Proof.
  unfold shift_traj_tir. now rewrite (select_tir_ignores_event (map vz (t_pos t)) e1 e2),
    (select_tir_ignores_event (map vz (t_dir t)) e1 e2).
Qed.

(** A film trajectory going straight down and out, with no TIR event: both of
    its directions and its later positions are changed. *)
Lemma shift_refuted_l : exists t, wf_len t /\ dirs_ok t
  /\ i_tir (event_indices 1 1 1 0 film t) = 0%nat
  /\ vz (nth 1 (t_dir (shift_traj_tir t 0)) vzero) = - vz (nth 1 (t_dir t) vzero)
  /\ vz (nth 1 (t_dir t) vzero) <> 0.
Proof.
  exists (mk_traj [(0, 0, 0); (0, 0, 1 / 2); (0, 0, 3 / 4)] [(0, 0, 1); (0, 0, 1)] [1; 1]).
  split; [unfold wf_len; cbn; lia|]. split; [unfold dirs_ok; cbn [t_dir]; constructor; [cbn; lra|constructor; [cbn; lra|constructor]]|].
  split.
  - unfold event_indices, find_valid_exits, find_valid_exits_film. cbn [t_pos t_dir map removelast tl vz map2 map3].
    assert (F : forall z, 0 <= z < 1 -> z_floor 1 0 z = 0%Z).
    { intros z Hz. unfold z_floor, floorZ. apply Int_part_unique. replace ((z - 0) / (1 - 0)) with z by field. cbn; lra. }
    rewrite !F by lra. cbn. reflexivity.
  - split; [|cbn; lra]. unfold shift_traj_tir. cbn [t_dir map vz].
    rewrite select_tir_flips. cbn [flips].
    replace (Reqb 1 0) with false by (symmetry; apply Reqb_false; lra). cbn. reflexivity.
Qed.

(* ------------------------------------------------------------------ *)
(** * Haze *)

Lemma haze_forward_bounds trs idx per c :
  length trs = length idx -> length idx = length per -> Forall (fun x => 0 <= x) per ->
  0 <= total (map2 (fun th w => if Rltb th c then w else 0) (map2 film_exit_angle trs idx) per) <= total per.
Proof.
  revert idx per. induction trs as [|t trs IH]; intros [|i idx] [|w per] H1 H2 H3; cbn in *; try lia; try lra.
  inversion H3; subst. destruct (IH idx per ltac:(lia) ltac:(lia) H5) as [A B].
  destruct (Rltb _ _); lra.
Qed.
Lemma haze_forward_mono trs idx per c1 c2 :
  length trs = length idx -> length idx = length per -> Forall (fun x => 0 <= x) per -> c1 <= c2 ->
  total (map2 (fun th w => if Rltb th c1 then w else 0) (map2 film_exit_angle trs idx) per)
  <= total (map2 (fun th w => if Rltb th c2 then w else 0) (map2 film_exit_angle trs idx) per).
Proof.
  revert idx per. induction trs as [|t trs IH]; intros [|i idx] [|w per] H1 H2 H3 H4; cbn in *; try lia; try lra.
  inversion H3; subst. pose proof (IH idx per ltac:(lia) ltac:(lia) H6 H4).
  destruct (Rltb (film_exit_angle t i) c1) eqn:E1; destruct (Rltb (film_exit_angle t i) c2) eqn:E2; try lra.
  apply Rltb_true in E1. apply Rltb_false in E2. lra.
Qed.
Lemma haze_forward_all trs idx per c :
  length trs = length idx -> length idx = length per -> PI / 2 < c ->
  total (map2 (fun th w => if Rltb th c then w else 0) (map2 film_exit_angle trs idx) per) = total per.
Proof.
  revert idx per. induction trs as [|t trs IH]; intros [|i idx] [|w per] H1 H2 H3; cbn in *; try lia; try lra.
  rewrite IH by (assumption || lia).
  replace (Rltb (film_exit_angle t i) c) with true; [reflexivity|].
  symmetry. apply Rltb_true. pose proof (film_angle_range (select_col (map vz (t_dir t)) i)).
  unfold film_exit_angle. lra.
Qed.
Lemma haze_forward_none trs idx per c :
  length trs = length idx -> length idx = length per -> c <= 0 ->
  total (map2 (fun th w => if Rltb th c then w else 0) (map2 film_exit_angle trs idx) per) = 0.
Proof.
  revert idx per. induction trs as [|t trs IH]; intros [|i idx] [|w per] H1 H2 H3; cbn in *; try lia; try lra.
  rewrite IH by (assumption || lia).
  replace (Rltb (film_exit_angle t i) c) with false; [lra|].
  symmetry. apply Rltb_false. pose proof (film_angle_range (select_col (map vz (t_dir t)) i)).
  unfold film_exit_angle. lra.
Qed.

Lemma haze_spec trs per idx c :
  length trs = length idx -> length idx = length per -> Forall (fun x => 0 <= x) per ->
  0 < total per ->
  exists h, calc_haze trs per (total per) idx c = Some h /\ 0 <= h <= 1
    /\ (PI / 2 < c -> h = 0) /\ (c <= 0 -> h = 1)
    /\ forall c' h', c <= c' -> calc_haze trs per (total per) idx c' = Some h' -> h' <= h.
Proof.
  intros H1 H2 H3 H4. unfold calc_haze, ndiv.
  replace (Reqb (total per) 0) with false by (symmetry; apply Reqb_false; lra).
  eexists. split; [rewrite (Rsum_total (map2 _ _ _)); reflexivity|].
  pose proof (haze_forward_bounds trs idx per c H1 H2 H3) as Hb.
  set (F := fun c => total (map2 (fun th w => if Rltb th c then w else 0) (map2 film_exit_angle trs idx) per)) in *.
  change (total (map2 (fun th w => if Rltb th c then w else 0) (map2 film_exit_angle trs idx) per)) with (F c) in *.
  assert (Hi : 0 < / total per) by (now apply Rinv_0_lt_compat).
  assert (Hone : total per * / total per = 1) by (apply Rinv_r; lra).
  unfold Rdiv. split.
  - split; [apply Rmult_le_pos; lra|]. rewrite <- Hone. apply Rmult_le_compat_r; lra.
  - split; [|split].
    + intros Hc. unfold F. rewrite haze_forward_all by assumption. rewrite Rminus_diag_eq by reflexivity. ring.
    + intros Hc. unfold F. rewrite haze_forward_none by assumption. rewrite Rminus_0_r. exact Hone.
    + intros c' h' Hc Hh. rewrite (Rsum_total (map2 _ _ _)) in Hh. injection Hh as <-.
      apply Rmult_le_compat_r; [lra|].
      pose proof (haze_forward_mono trs idx per c c' H1 H2 H3 Hc) as Hm. fold (F c) (F c') in Hm. 
      change (total (map2 (fun th w => if Rltb th c' then w else 0) (map2 film_exit_angle trs idx) per)) with (F c').
      unfold F in *. lra.
Qed.
