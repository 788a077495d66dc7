(** The levels at which calc_diam_list reads the density (C62). *)
From Coq Require Import Lra Lia Psatz Permutation.
From Verif Require Import Num Spec Spec_bulk L_num M_montecarlo M_phase_func_sphere L_montecarlo L_montecarlo2 L_trapezoid L_sizes L_bulk L_diam.
Open Scope R_scope.

Fixpoint level_state (i : nat) (s : Z * Z) : Z * Z :=
  match i with O => s | S i' => level_state i' (next_level (fst s) (snd s)) end.

Lemma level_state_add i j s : level_state (i + j) s = level_state j (level_state i s).
Proof. revert s. induction i as [|i IH]; intros s; [reflexivity|]. cbn [Nat.add level_state]. apply IH. Qed.

Lemma level_run (j : nat) : forall num denom, (2 * Z.of_nat j < num)%Z ->
  level_state j (num, denom) = ((num - 2 * Z.of_nat j)%Z, denom).
Proof.
  induction j as [|j IH]; intros num denom H; [cbn [level_state]; f_equal; lia|].
  cbn [level_state fst snd]. unfold next_level. rewrite (proj2 (Z.eqb_neq num 1)) by lia.
  rewrite IH by lia. f_equal. lia.
Qed.

Lemma level_block k : level_state (2 ^ k - 1) (1%Z, 2%Z) = ((2 ^ Z.of_nat (S k) - 1)%Z, (2 ^ Z.of_nat (S k))%Z).
Proof.
  induction k as [|k IH]; [reflexivity|].
  assert (Hp : (2 ^ k >= 1)%nat) by (pose proof (Nat.pow_nonzero 2 k); lia).
  replace (2 ^ S k - 1)%nat with ((2 ^ k - 1) + ((2 ^ k - 1) + 1))%nat by (cbn [Nat.pow]; lia).
  rewrite level_state_add, IH, level_state_add.
  assert (Hz : Z.of_nat (2 ^ k) = (2 ^ Z.of_nat k)%Z) by (rewrite Nat2Z.inj_pow; reflexivity).
  assert (Hs : (2 ^ Z.of_nat (S k) = 2 * 2 ^ Z.of_nat k)%Z) by (rewrite Nat2Z.inj_succ, Z.pow_succ_r; lia).
  assert (Hs2 : (2 ^ Z.of_nat (S (S k)) = 2 * 2 ^ Z.of_nat (S k))%Z) by (rewrite (Nat2Z.inj_succ (S k)), Z.pow_succ_r; lia).
  assert (Hpos : (0 < 2 ^ Z.of_nat k)%Z) by (apply Z.pow_pos_nonneg; lia).
  rewrite level_run by (rewrite Nat2Z.inj_sub by lia; lia).
  rewrite Nat2Z.inj_sub by lia. rewrite Hz, Hs. cbn [level_state fst snd]. unfold next_level.
  rewrite (proj2 (Z.eqb_eq _ _)) by lia. rewrite Hs2, Hs. f_equal; lia.
Qed.

Lemma level_value k j : (j < 2 ^ k)%nat ->
  level_state (2 ^ k - 1 + j) (1%Z, 2%Z) = ((2 ^ Z.of_nat (S k) - 1 - 2 * Z.of_nat j)%Z, (2 ^ Z.of_nat (S k))%Z).
Proof.
  intros Hj. rewrite level_state_add, level_block.
  assert (Hz : Z.of_nat (2 ^ k) = (2 ^ Z.of_nat k)%Z) by (rewrite Nat2Z.inj_pow; reflexivity).
  assert (Hs : (2 ^ Z.of_nat (S k) = 2 * 2 ^ Z.of_nat k)%Z) by (rewrite Nat2Z.inj_succ, Z.pow_succ_r; lia).
  apply level_run. lia.
Qed.

(** What pass [i] of the loop appends. *)
Lemma pick_loop_pass pdf rad : length pdf = 600%nat -> length rad = 600%nat ->
  forall k s l i, pick_loop k pdf rad 600 (fst s) (snd s) = Ok l -> (i < k)%nat ->
  exists p, pick_pair pdf rad 600 (fst (level_state i s)) (snd (level_state i s)) = Ok p /\ firstn 2 (skipn (2 * i) l) = p.
Proof.
  intros Hp Hr. induction k as [|k IH]; intros s l i El Hi; [lia|].
  cbn [pick_loop] in El.
  destruct (pick_pair_ok pdf rad (fst s) (snd s) Hp Hr) as (a & b & _ & _ & E & _). rewrite E in El. cbn [bind] in El.
  destruct (next_level (fst s) (snd s)) as [n' d'] eqn:En.
  destruct (pick_loop k pdf rad 600 n' d') as [l'|] eqn:E'; cbn [bind] in El; [|discriminate].
  apply Ok_inj in El. subst l. destruct i as [|i].
  - exists [nth a rad 0; nth b rad 0]. split; [exact E|reflexivity].
  - destruct (IH (n', d') l' i E' ltac:(lia)) as (p & Ep & Hp').
    exists p. cbn [level_state]. rewrite En. split; [exact Ep|].
    replace (2 * S i)%nat with (S (S (2 * i))) by lia. exact Hp'.
Qed.

Lemma diam_list_levels factorial n mean pdi l k j :
  let density := size_density factorial mean ((1 - pdi ^ 2) / pdi ^ 2) in
  let grid := linspace 1 (2 * mean) 600 in
  calc_diam_list factorial n mean pdi false 600 = Ok l -> (j < 2 ^ k)%nat -> (2 ^ k - 1 + j < n / 2)%nat ->
  (forall g, In g grid -> 0 < density g) ->
  exists d d1 d2, In d1 l /\ In d2 l /\ most_likely density grid d
    /\ nearest_to density (IZR (2 ^ Z.of_nat (S k) - 1 - 2 * Z.of_nat j) / IZR (2 ^ Z.of_nat (S k)) * density d) (firstn 300 grid) d1
    /\ nearest_to density (IZR (2 ^ Z.of_nat (S k) - 1 - 2 * Z.of_nat j) / IZR (2 ^ Z.of_nat (S k)) * density d) (skipn 300 grid) d2.
Proof.
  intros density0 grid0 Hl Hj Hk Hpos0. revert Hl.
  unfold calc_diam_list. replace (4 * (mean / 2)) with (2 * mean) by field. replace (2 * (mean / 2)) with mean by field.
  unfold density0, grid0 in *. clear density0 grid0.
  set (t := (1 - pdi ^ 2) / pdi ^ 2) in *. set (grid := linspace 1 (2 * mean) 600) in *.
  assert (Lg : length grid = 600%nat) by apply linspace_length. cbv zeta.
  rewrite size_distr_map. set (f := size_density factorial mean t) in *. set (rad := map (fun d => d / 2) grid).
  set (pdf := map f grid).
  assert (Lp : length pdf = 600%nat) by (unfold pdf; rewrite map_length; exact Lg).
  assert (Lr : length rad = 600%nat) by (unfold rad; rewrite map_length; exact Lg).
  destruct (Rargmax_spec pdf) as (im & Em & Him & Mm).
  { intros E. rewrite E in Lp. discriminate. }
  rewrite Em. cbn [bind].
  destruct (pick_loop (n / 2) pdf rad 600 1 2) as [pl|] eqn:El; cbn [bind]; [|discriminate].
  intros H. apply Ok_inj in H. subst l.
  assert (P : Permutation (nth im rad 0 :: pl) (sort (nth im rad 0 :: pl))) by apply sort_perm.
  assert (NR : forall i, (i < 600)%nat -> 2 * nth i rad 0 = nth i grid 0).
  { intros i Hi. unfold rad. rewrite (nth_map_in _ _ _ 0) by lia. field. }
  assert (NP : forall i, (i < 600)%nat -> nth i pdf 0 = f (nth i grid 0)).
  { intros i Hi. unfold pdf. rewrite (nth_map_in _ _ _ 0) by lia. reflexivity. }
  destruct (pick_loop_pass pdf rad Lp Lr (n / 2) (1%Z, 2%Z) pl (2 ^ k - 1 + j)%nat El Hk) as (p & Ep & Hp).
  rewrite level_value in Ep by exact Hj. cbn [fst snd] in Ep.
  set (num := (2 ^ Z.of_nat (S k) - 1 - 2 * Z.of_nat j)%Z) in *. set (den := (2 ^ Z.of_nat (S k))%Z) in *.
  destruct (pick_pair_ok pdf rad num den Lp Lr) as (i & j' & Hi & Hj' & E & Mi & Mj).
  rewrite E in Ep. apply Ok_inj in Ep.
  assert (Hin : In (nth i rad 0) pl /\ In (nth j' rad 0) pl).
  { assert (Hsub : forall x, In x p -> In x pl).
    { intros x Hx. rewrite <- Hp in Hx. rewrite <- (firstn_skipn (2 * (2 ^ k - 1 + j)) pl). apply in_or_app. right.
      rewrite <- (firstn_skipn 2 (skipn _ pl)). apply in_or_app. now left. }
    split; apply Hsub; rewrite <- Ep; [left; reflexivity|right; left; reflexivity]. }
  exists (nth im grid 0), (nth i grid 0), (nth j' grid 0).
  assert (T : forall q, (q < 600)%nat -> In (nth q rad 0) pl -> In (nth q grid 0) (map (fun r => 2 * r) (sort (nth im rad 0 :: pl)))).
  { intros q Hq H. apply in_map_iff. exists (nth q rad 0). split; [now apply NR|]. apply (Permutation_in _ P). now right. }
  split; [apply T; [lia|tauto]|]. split; [apply T; [lia|tauto]|].
  split.
  { split; [apply nth_In; lia|]. intros g Hg. apply (In_nth _ _ 0) in Hg as (q & Hq & <-).
    rewrite <- !NP by lia. apply Mm. lia. }
  assert (Hmax : Rmax_list pdf = f (nth im grid 0)).
  { rewrite (Rmax_list_is_max pdf im); [apply NP; lia| |exact Him|exact Mm].
    apply Forall_forall. intros x Hx. apply in_map_iff in Hx as (g & <- & Hg). now apply Hpos0. }
  rewrite Hmax in Mi, Mj.
  assert (F1 : forall q, (q < 300)%nat -> nth q (firstn 300 grid) 0 = nth q grid 0).
  { intros q Hq. rewrite <- (firstn_skipn 300 grid) at 2. rewrite app_nth1; [reflexivity|]. rewrite firstn_length. lia. }
  split; split.
  + rewrite <- F1 by lia. apply nth_In. rewrite firstn_length. lia.
  + intros g Hg. apply (In_nth _ _ 0) in Hg as (q & Hq & <-). rewrite firstn_length in Hq.
    rewrite F1 by lia. rewrite <- (NP i), <- (NP q) by lia. apply Mi. lia.
  + replace j' with (300 + (j' - 300))%nat by lia. rewrite <- nth_skipn_add. apply nth_In. rewrite skipn_length. lia.
  + intros g Hg. apply (In_nth _ _ 0) in Hg as (q & Hq & <-). rewrite skipn_length in Hq.
    rewrite nth_skipn_add. rewrite <- (NP j'), <- (NP (300 + q)%nat) by lia. apply Mj. lia.
Qed.
