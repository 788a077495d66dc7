(** The phase function of a structured sphere (C93-C95). *)
From Coq Require Import Lra Lia Psatz.
From Verif Require Import L_num L_slots L_montecarlo L_montecarlo2.
From Verif Require Export L_bulk.
Open Scope R_scope.

Lemma filter_map_comm {A B} (f : A -> B) (p : B -> bool) l : filter p (map f l) = map f (filter (fun a => p (f a)) l).
Proof. induction l as [|a l IH]; [reflexivity|]. cbn. destruct (p (f a)); cbn; now rewrite IH. Qed.

Lemma filter_same_length {A} (p q : A -> bool) l : (forall a, In a l -> p a = true -> q a = true) ->
  (length (filter p l) = length (filter q l) <-> forall a, In a l -> q a = true -> p a = true).
Proof.
  intros H.
  assert (G : forall l, (forall a, In a l -> p a = true -> q a = true) -> (length (filter p l) <= length (filter q l))%nat).
  { clear. induction l as [|a l IH]; intros H; [cbn; lia|]. cbn.
    specialize (IH (fun b Hb => H b (or_intror Hb))).
    destruct (p a) eqn:Ep; [rewrite (H a (or_introl eq_refl) Ep); cbn; lia|]. destruct (q a); cbn; lia. }
  induction l as [|a l IH]; [cbn; split; [intros _ ? []|reflexivity]|].
  assert (Hl : forall b, In b l -> p b = true -> q b = true) by (intros b Hb; apply H; now right).
  specialize (IH Hl). cbn. pose proof (G l Hl).
  destruct (p a) eqn:Ep.
  - rewrite (H a (or_introl eq_refl) Ep). cbn. split.
    + intros E b [<-|Hb] Hq; [exact Ep|]. apply IH; [lia|exact Hb|exact Hq].
    + intros E. f_equal. apply IH. intros b Hb. apply E. now right.
  - destruct (q a) eqn:Eq; cbn.
    + split; [lia|]. intros E. specialize (E a (or_introl eq_refl) Eq). congruence.
    + rewrite IH. split; intros E b; [intros [<-|Hb] Hq; [congruence|now apply E]|intros Hb; apply E; now right].
Qed.

(** Per trajectory: weight and position (or direction) kept. *)
Definition kept_weight (rw tw : nat -> R) (ri ti : nat -> nat) (i : nat) : R :=
  rw i * INR (flag (ri i)) + tw i * INR (flag (scat_index (ti i))).
Definition kept_z (z rw tw : nat -> R) (ri ti : nat -> nat) (i : nat) : R :=
  z i * (rflag (rw i * INR (flag (ri i))) + rflag (tw i * INR (flag (scat_index (ti i))))).
Definition kept_kz (k : nat -> list R) (ri ti : nat -> nat) (i : nat) : R :=
  select_col (k i) (ri i + scat_index (ti i)).

Definition scatteredb (ri ti : nat -> nat) (i : nat) : bool := negb (Nat.eqb (ri i) 0) || Nat.leb 2 (ti i).
Lemma scatteredb_true ri ti i : scatteredb ri ti i = true <-> scattered_out ri ti i.
Proof.
  unfold scatteredb, scattered_out. rewrite orb_true_iff, negb_true_iff, Nat.eqb_neq, Nat.leb_le. tauto.
Qed.

Lemma flags_cases ri ti i n : one_exit n ri ti -> (i < n)%nat ->
  (scatteredb ri ti i = false /\ flag (ri i) = 0%nat /\ flag (scat_index (ti i)) = 0%nat)
  \/ (scatteredb ri ti i = true /\ ri i <> 0%nat /\ ti i = 0%nat /\ flag (ri i) = 1%nat /\ flag (scat_index (ti i)) = 0%nat)
  \/ (scatteredb ri ti i = true /\ ri i = 0%nat /\ (2 <= ti i)%nat /\ flag (ri i) = 0%nat /\ flag (scat_index (ti i)) = 1%nat).
Proof.
  intros Ho Hi. destruct (Ho i Hi) as [E|E]; unfold scatteredb, flag, scat_index; rewrite E; cbn [Nat.eqb negb orb].
  - destruct (ti i) as [|[|k]]; cbn; [left|left|right; right]; repeat split; lia.
  - cbn. destruct (ri i) as [|k]; cbn; [left|right; left]; repeat split; lia.
Qed.

Lemma kept_weight_value rw tw ri ti i n : one_exit n ri ti -> (i < n)%nat ->
  kept_weight rw tw ri ti i = if scatteredb ri ti i then exit_weight rw tw ri ti i else 0.
Proof.
  intros Ho Hi. unfold kept_weight, exit_weight.
  destruct (flags_cases ri ti i n Ho Hi) as [(-> & -> & ->)|[(-> & H1 & _ & -> & ->)|(-> & H1 & _ & -> & ->)]]; cbn [INR].
  - ring.
  - apply Nat.eqb_neq in H1. rewrite H1. ring.
  - rewrite H1. cbn. ring.
Qed.

Lemma kept_z_value z rw tw ri ti i n : one_exit n ri ti -> (i < n)%nat ->
  kept_z z rw tw ri ti i = if scatteredb ri ti i && negb (Reqb (exit_weight rw tw ri ti i) 0) then z i else 0.
Proof.
  intros Ho Hi. unfold kept_z, exit_weight.
  assert (R0 : rflag 0 = 0) by (unfold rflag; now rewrite (proj2 (Reqb_true 0 0))).
  destruct (flags_cases ri ti i n Ho Hi) as [(-> & -> & ->)|[(-> & H1 & _ & -> & ->)|(-> & H1 & _ & -> & ->)]]; cbn [INR];
  rewrite ?Rmult_0_r, ?Rmult_1_r, ?R0; cbn [andb].
  - ring.
  - apply Nat.eqb_neq in H1. rewrite H1. unfold rflag. destruct (Reqb (rw i) 0); cbn [negb]; ring.
  - rewrite H1. cbn [Nat.eqb]. unfold rflag. destruct (Reqb (tw i) 0); cbn [negb]; ring.
Qed.

Lemma kept_kz_value k ri ti i n : one_exit n ri ti -> (i < n)%nat ->
  kept_kz k ri ti i = if scatteredb ri ti i then nth (ri i + ti i - 1) (k i) 0 else 0.
Proof.
  intros Ho Hi. unfold kept_kz.
  destruct (flags_cases ri ti i n Ho Hi) as [(E & F1 & F2)|[(E & H1 & H2 & _)|(E & H1 & H2 & _)]]; rewrite E.
  - unfold flag in F1, F2. destruct (Nat.eqb (ri i) 0) eqn:E1; [|discriminate]. apply Nat.eqb_eq in E1.
    destruct (Nat.eqb (scat_index (ti i)) 0) eqn:E2; [|discriminate]. apply Nat.eqb_eq in E2.
    rewrite E1, E2. reflexivity.
  - rewrite H2. unfold scat_index. cbn [Nat.eqb]. rewrite Nat.add_0_r. unfold select_col.
    destruct (ri i) as [|m]; [lia|]. f_equal. lia.
  - rewrite H1. unfold scat_index. destruct (Nat.eqb (ti i) 1) eqn:E1; [apply Nat.eqb_eq in E1; lia|].
    cbn [Nat.add]. unfold select_col. destruct (ti i) as [|m]; [lia|]. f_equal. lia.
Qed.

Lemma weights_map n rw tw ri ti :
  pdf_weights (map rw (seq 0 n)) (map tw (seq 0 n)) (map ri (seq 0 n)) (map ti (seq 0 n))
  = nonzero (map (kept_weight rw tw ri ti) (seq 0 n)).
Proof. unfold pdf_weights. rewrite map_map, !map2_maps. reflexivity. Qed.

Lemma thetas_z n z radius rw tw ri ti :
  pdf_thetas (map z (seq 0 n)) radius (map rw (seq 0 n)) (map tw (seq 0 n)) (map ri (seq 0 n)) (map ti (seq 0 n)) None
  = map (fun x => acos (x / radius)) (nonzero (map (kept_z z rw tw ri ti) (seq 0 n))).
Proof. unfold pdf_thetas. rewrite map_map, !map2_maps. reflexivity. Qed.

Lemma thetas_kz n z radius rw tw ri ti k :
  pdf_thetas (map z (seq 0 n)) radius (map rw (seq 0 n)) (map tw (seq 0 n)) (map ri (seq 0 n)) (map ti (seq 0 n))
    (Some (map k (seq 0 n)))
  = map acos (nonzero (map (kept_kz k ri ti) (seq 0 n))).
Proof. unfold pdf_thetas, select_all. rewrite map_map, !map2_maps. reflexivity. Qed.

Lemma calc_pdf_error_iff bw z radius rw tw ri ti kz :
  let th := pdf_thetas z radius rw tw ri ti kz in
  calc_pdf bw z radius rw tw ri ti kz = Err ValueError
  <-> th <> [] /\ length th <> length (pdf_weights rw tw ri ti).
Proof.
  cbv zeta. unfold calc_pdf. set (th := pdf_thetas z radius rw tw ri ti kz). set (w := pdf_weights rw tw ri ti).
  set (nu := map (fun t => (cos t + 1) / 2) th).
  set (e := map Ropp nu ++ nu ++ map (fun x => - x + 2) nu).
  assert (Le : length e = (3 * length th)%nat).
  { unfold e, nu. rewrite !app_length, !map_length. lia. }
  unfold gaussian_kde.
  replace (length (w ++ w ++ w)) with (3 * length w)%nat by (rewrite !app_length; lia). rewrite Le.
  destruct e as [|x e'] eqn:Ee.
  - split; [discriminate|]. intros [H _]. destruct th; [contradiction|]. cbn in Le. lia.
  - assert (th <> []) by (intros E; rewrite E in Le; cbn in Le; lia).
    destruct (Nat.eqb (3 * length th) (3 * length w)) eqn:E3; cbn [negb bind].
    + split; [discriminate|]. intros [_ H1]. apply Nat.eqb_eq in E3. lia.
    + apply Nat.eqb_neq in E3. split; [intros _; split; [assumption|lia]|reflexivity].
Qed.

Lemma map_nonempty {A} (f : nat -> bool) (g : nat -> A) n :
  map g (filter f (seq 0 n)) <> [] <-> exists i, (i < n)%nat /\ f i = true.
Proof.
  split.
  - intros H. destruct (filter f (seq 0 n)) as [|i l] eqn:E; [contradiction|].
    assert (Hi : In i (filter f (seq 0 n))) by (rewrite E; now left).
    apply filter_In in Hi as [H1 H2]. apply in_seq in H1. exists i. split; [lia|exact H2].
  - intros (i & Hi & Hf) E. assert (Hin : In i (filter f (seq 0 n))) by (apply filter_In; split; [apply in_seq; lia|exact Hf]).
    destruct (filter f (seq 0 n)); [exact Hin|discriminate].
Qed.

Lemma negb_Reqb x : negb (Reqb x 0) = true <-> x <> 0.
Proof. rewrite negb_true_iff. apply Reqb_false. Qed.

(** Position branch. *)
Lemma pdf_equator bw n z radius rw tw ri ti :
  one_exit n ri ti ->
  pdf_call bw n z radius rw tw ri ti None = Err ValueError
  <-> (exists i, (i < n)%nat /\ scattered_out ri ti i /\ exit_weight rw tw ri ti i <> 0 /\ z i <> 0)
      /\ (exists i, (i < n)%nat /\ scattered_out ri ti i /\ exit_weight rw tw ri ti i <> 0 /\ z i = 0).
Proof.
  intros Ho. unfold pdf_call, option_map. rewrite calc_pdf_error_iff.
  rewrite thetas_z, weights_map, map_length. unfold nonzero. rewrite !filter_map_comm, !map_length, map_map.
  rewrite map_nonempty.
  rewrite (filter_same_length (fun a => negb (Reqb (kept_z z rw tw ri ti a) 0))
             (fun a => negb (Reqb (kept_weight rw tw ri ti a) 0)) (seq 0 n)).
  2:{ intros i Hi. apply in_seq in Hi. rewrite !negb_Reqb.
      rewrite (kept_z_value _ _ _ _ _ _ n Ho), (kept_weight_value _ _ _ _ _ n Ho) by lia.
      destruct (scatteredb ri ti i); cbn [andb]; [|tauto].
      destruct (Reqb (exit_weight rw tw ri ti i) 0) eqn:E; cbn [negb]; [tauto|]. apply Reqb_false in E. tauto. }
  assert (K : forall i, (i < n)%nat -> negb (Reqb (kept_z z rw tw ri ti i) 0) = true
     <-> scattered_out ri ti i /\ exit_weight rw tw ri ti i <> 0 /\ z i <> 0).
  { intros i Hi. rewrite negb_Reqb, (kept_z_value _ _ _ _ _ _ n Ho Hi), <- scatteredb_true.
    destruct (scatteredb ri ti i); cbn [andb]; [|split; [tauto|intros [? _]; discriminate]].
    destruct (Reqb (exit_weight rw tw ri ti i) 0) eqn:E; cbn [negb].
    - apply Reqb_true in E. tauto.
    - apply Reqb_false in E. tauto. }
  assert (W : forall i, (i < n)%nat -> negb (Reqb (kept_weight rw tw ri ti i) 0) = true
     <-> scattered_out ri ti i /\ exit_weight rw tw ri ti i <> 0).
  { intros i Hi. rewrite negb_Reqb, (kept_weight_value _ _ _ _ _ n Ho Hi), <- scatteredb_true.
    destruct (scatteredb ri ti i); [tauto|]. split; [tauto|intros [? _]; discriminate]. }
  split.
  - intros [(i & Hi & H1) H2]. split; [exists i; split; [exact Hi|]; now apply K|].
    (* some kept weight without kept position *)
    destruct (existsb (fun i => negb (Reqb (kept_weight rw tw ri ti i) 0) && Reqb (kept_z z rw tw ri ti i) 0) (seq 0 n)) eqn:E.
    + apply existsb_exists in E as (j & Hj & Ej). apply in_seq in Hj. apply andb_true_iff in Ej as [E1 E2].
      apply W in E1 as [S1 S2]; [|lia]. exists j. split; [lia|]. split; [exact S1|]. split; [exact S2|].
      apply Reqb_true in E2. rewrite (kept_z_value _ _ _ _ _ _ n Ho) in E2 by lia.
      apply scatteredb_true in S1. rewrite S1 in E2. rewrite (proj2 (Reqb_false _ 0) S2) in E2. exact E2.
    + exfalso. apply H2. intros j Hj Ew. destruct (Reqb (kept_z z rw tw ri ti j) 0) eqn:Ez; [|reflexivity].
      assert (existsb (fun i => negb (Reqb (kept_weight rw tw ri ti i) 0) && Reqb (kept_z z rw tw ri ti i) 0) (seq 0 n) = true); [|congruence].
      apply existsb_exists. exists j. split; [exact Hj|]. now rewrite Ew, Ez.
  - intros [(i & Hi & H1) (j & Hj & S1 & S2 & Hz)]. split; [exists i; split; [exact Hi|now apply K]|].
    intros H2. assert (E : negb (Reqb (kept_z z rw tw ri ti j) 0) = true).
    { apply H2; [apply in_seq; lia|]. now apply W. }
    apply K in E; [tauto|exact Hj].
Qed.

(** Direction branch. *)
Lemma pdf_zero_weight bw n z radius rw tw ri ti k :
  one_exit n ri ti ->
  (forall i, (i < n)%nat -> scattered_out ri ti i -> nth (ri i + ti i - 1) (k i) 0 <> 0) ->
  pdf_call bw n z radius rw tw ri ti (Some k) = Err ValueError
  <-> exists i, (i < n)%nat /\ scattered_out ri ti i /\ exit_weight rw tw ri ti i = 0.
Proof.
  intros Ho Hk. unfold pdf_call, option_map. rewrite calc_pdf_error_iff.
  rewrite thetas_kz, weights_map, map_length. unfold nonzero. rewrite !filter_map_comm, !map_length, map_map.
  rewrite map_nonempty.
  assert (K : forall i, (i < n)%nat -> negb (Reqb (kept_kz k ri ti i) 0) = scatteredb ri ti i).
  { intros i Hi. rewrite (kept_kz_value _ _ _ _ n Ho Hi). destruct (scatteredb ri ti i) eqn:E.
    - apply negb_Reqb. apply Hk; [exact Hi|]. now apply scatteredb_true.
    - now rewrite (proj2 (Reqb_true 0 0)). }
  assert (W : forall i, (i < n)%nat -> negb (Reqb (kept_weight rw tw ri ti i) 0) = true
     <-> scatteredb ri ti i = true /\ exit_weight rw tw ri ti i <> 0).
  { intros i Hi. rewrite negb_Reqb, (kept_weight_value _ _ _ _ _ n Ho Hi).
    destruct (scatteredb ri ti i); [tauto|]. split; [tauto|intros [? _]; discriminate]. }
  assert (L : length (filter (fun i => negb (Reqb (kept_kz k ri ti i) 0)) (seq 0 n))
     = length (filter (fun i => negb (Reqb (kept_weight rw tw ri ti i) 0)) (seq 0 n))
     <-> (forall i, (i < n)%nat -> scatteredb ri ti i = true -> exit_weight rw tw ri ti i <> 0)).
  { assert (Hsub : forall i, In i (seq 0 n) -> negb (Reqb (kept_weight rw tw ri ti i) 0) = true
        -> negb (Reqb (kept_kz k ri ti i) 0) = true).
    { intros i Hi. apply in_seq in Hi. intros Hw. apply W in Hw; [|lia]. rewrite K by lia. tauto. }
    pose proof (filter_same_length (fun i => negb (Reqb (kept_weight rw tw ri ti i) 0))
       (fun i => negb (Reqb (kept_kz k ri ti i) 0)) (seq 0 n) Hsub) as FSL.
    split.
    - intros E. symmetry in E. pose proof (proj1 FSL E) as E'.
      intros i Hi Hs. apply (proj1 (W i Hi)). apply E'; [apply in_seq; lia|]. now rewrite K.
    - intros H. symmetry. apply (proj2 FSL).
      intros i Hi. apply in_seq in Hi. rewrite K by lia. intros Hs. apply W; [lia|]. split; [exact Hs|]. apply H; [lia|exact Hs]. }
  rewrite L. split.
  - intros [_ H2].
    destruct (existsb (fun i => scatteredb ri ti i && Reqb (exit_weight rw tw ri ti i) 0) (seq 0 n)) eqn:E.
    + apply existsb_exists in E as (j & Hj & Ej). apply in_seq in Hj. apply andb_true_iff in Ej as [E1 E2].
      exists j. split; [lia|]. split; [now apply scatteredb_true|now apply Reqb_true].
    + exfalso. apply H2. intros j Hj Hs H0.
      assert (existsb (fun i => scatteredb ri ti i && Reqb (exit_weight rw tw ri ti i) 0) (seq 0 n) = true); [|congruence].
      apply existsb_exists. exists j. split; [apply in_seq; lia|]. rewrite Hs. cbn. now apply Reqb_true.
  - intros (i & Hi & Hs & H0). apply scatteredb_true in Hs. split.
    + exists i. split; [exact Hi|]. now rewrite K.
    + intros H. apply (H i Hi Hs). exact H0.
Qed.

(** The result is a distribution. *)
Lemma gaussian_pos h u : 0 < h -> 0 < gaussian h u.
Proof.
  intros H. unfold gaussian. apply Rdiv_lt_0_compat; [apply exp_pos|].
  apply Rmult_lt_0_compat; [exact H|]. apply sqrt_lt_R0. pose proof PI_RGT_0. lra.
Qed.

Lemma map2_sum_pos {A} (f : A -> R -> R) : forall la lb, length la = length lb -> la <> [] ->
  Forall (fun w => 0 < w) lb -> (forall a w, 0 < w -> 0 < f a w) -> 0 < Rsum (map2 f la lb).
Proof.
  assert (G : forall la lb, Forall (fun w => 0 < w) lb -> (forall a w, 0 < w -> 0 < f a w) -> 0 <= Rsum (map2 f la lb)).
  { induction la as [|a la IH]; intros [|b lb] HF Hf; cbn; try lra. inversion HF; subst.
    specialize (IH lb H2 Hf). specialize (Hf a b H1). unfold Rsum in IH. lra. }
  intros [|a la] [|b lb] HL Hne HF Hf; try discriminate; [contradiction|]. cbn.
  inversion HF; subst. specialize (G la lb H2 Hf). specialize (Hf a b H1). unfold Rsum in G. lra.
Qed.

Lemma normalise_positive l : Forall (fun x => 0 < x) l -> l <> [] ->
  exists q, normalise l = map Some q /\ length q = length l /\ Forall (fun x => 0 < x) q /\ total q = 1.
Proof.
  intros HF Hne.
  assert (Ht : 0 < total l).
  { destruct l as [|x l]; [contradiction|]. cbn. inversion HF; subst.
    assert (0 <= total l); [|lra]. apply total_nonneg. eapply Forall_impl; [|exact H2]. intros; lra. }
  destruct (normalise_distribution l) as (q & E & L & N & T); [eapply Forall_impl; [|exact HF]; intros; lra|lra|].
  exists q. split; [exact E|]. split; [exact L|]. split; [|exact T].
  rewrite (normalise_somes l) in E by lra. 
  assert (Q : map (fun x => x / total l) l = q).
  { clear - E. revert q E. generalize (map (fun x => x / total l) l). induction l0 as [|y m IH]; intros [|z q] E; try discriminate; [reflexivity|].
    cbn in E. injection E as E1 E2. f_equal; [exact E1|now apply IH]. }
  rewrite <- Q. apply Forall_forall. intros x Hx. apply in_map_iff in Hx as (y & <- & Hy).
  rewrite Forall_forall in HF. apply Rdiv_lt_0_compat; auto.
Qed.

Lemma weights_pos rw tw ri ti :
  Forall (fun x => 0 <= x) rw -> Forall (fun x => 0 <= x) tw ->
  Forall (fun x => 0 < x) (pdf_weights rw tw ri ti).
Proof.
  intros Hr Ht. unfold pdf_weights, nonzero. apply Forall_forall. intros x Hx.
  apply filter_In in Hx as [Hx Hn]. apply negb_Reqb in Hn.
  assert (0 <= x); [|lra].
  assert (G : forall (l : list R) (m : list nat), Forall (fun x => 0 <= x) l ->
     Forall (fun x => 0 <= x) (map2 (fun w i => w * INR (flag i)) l m)).
  { induction l as [|a l IH]; intros [|b m] H; try constructor; inversion H; subst.
    - apply Rmult_le_pos; [assumption|apply pos_INR].
    - now apply IH. }
  pose proof (G rw ri Hr) as A. pose proof (G tw (map scat_index ti) Ht) as B. clear - Hx A B.
  revert Hx A B. generalize (map2 (fun (w : R) (i : nat) => w * INR (flag i)) rw ri).
  generalize (map2 (fun (w : R) (i : nat) => w * INR (flag i)) tw (map scat_index ti)).
  induction l as [|a l IH]; intros [|b m] Hx A B; cbn in Hx; try contradiction.
  inversion A; inversion B; subst. destruct Hx as [<-|Hx]; [lra|]. now apply (IH m).
Qed.

Lemma Ok_inj {A} (x y : A) : Ok x = Ok y -> x = y.
Proof. intros H. now injection H. Qed.
Lemma Some_inj {A} (x y : A) : Some x = Some y -> x = y.
Proof. intros H. now injection H. Qed.
Lemma pdf_distribution bw z radius rw tw ri ti kz l after :
  (forall d w, 0 < bw d w) ->
  Forall (fun x => 0 <= x) rw -> Forall (fun x => 0 <= x) tw ->
  calc_pdf bw z radius rw tw ri ti kz = Ok (Some l, after) ->
  exists q, l = map Some q /\ length q = 200%nat /\ Forall (fun x => 0 < x) q /\ total q = 1.
Proof.
  intros Hbw Hr Ht. unfold calc_pdf. set (th := pdf_thetas z radius rw tw ri ti kz).
  pose proof (weights_pos rw tw ri ti Hr Ht) as Hw. set (w := pdf_weights rw tw ri ti) in *.
  set (nu := map (fun t => (cos t + 1) / 2) th).
  set (e := map Ropp nu ++ nu ++ map (fun x => - x + 2) nu).
  destruct e as [|x e'] eqn:Ee; [discriminate|]. rewrite <- Ee. unfold gaussian_kde.
  destruct (Nat.eqb (length e) (length (w ++ w ++ w))) eqn:EL; cbn [negb bind]; [|discriminate].
  apply Nat.eqb_eq in EL. intros H. apply Ok_inj in H. assert (H' := f_equal fst H). clear H. apply Some_inj in H'. cbn [fst] in H'. subst l.
  assert (Hww : Forall (fun x => 0 < x) (w ++ w ++ w)) by (apply Forall_app; split; [exact Hw|]; apply Forall_app; split; exact Hw).
  assert (Hne : e <> []) by (rewrite Ee; discriminate).
  assert (Hwne : w ++ w ++ w <> []) by (intros E; rewrite E in EL; cbn in EL; destruct e; [contradiction|discriminate]).
  assert (Hs : 0 < Rsum (w ++ w ++ w)).
  { rewrite Rsum_total. destruct (w ++ w ++ w) as [|y m]; [contradiction|]. cbn. inversion Hww; subst.
    assert (0 <= total m); [|lra]. apply total_nonneg. eapply Forall_impl; [|exact H2]. intros; lra. }
  destruct (normalise_positive (map (fun t => Rsum (map2 (fun d w0 => w0 / Rsum (w ++ w ++ w)
      * gaussian (bw e (w ++ w ++ w)) ((cos t + 1) / 2 - d)) e (w ++ w ++ w))) pdf_angles)) as (q & E & L & P & T).
  - apply Forall_forall. intros y Hy. apply in_map_iff in Hy as (t & <- & _).
    apply map2_sum_pos; [exact EL|exact Hne|exact Hww|].
    intros a b Hb. apply Rmult_lt_0_compat; [now apply Rdiv_lt_0_compat|]. apply gaussian_pos, Hbw.
  - intros E. apply (f_equal (@length R)) in E. rewrite map_length in E. unfold pdf_angles in E. rewrite linspace_length in E. discriminate.
  - exists q. split; [exact E|]. split; [|split; [exact P|exact T]].
    rewrite L, map_length. unfold pdf_angles. apply linspace_length.
Qed.

Lemma pdf_nan bw n z radius rw tw ri ti after :
  one_exit n ri ti ->
  pdf_call bw n z radius rw tw ri ti None = Ok (None, after)
  <-> after = map (fun i => if Nat.eqb (ri i) 0 then 0%nat else 1%nat) (seq 0 n)
      /\ forall i, (i < n)%nat -> scattered_out ri ti i -> exit_weight rw tw ri ti i <> 0 -> z i = 0.
Proof.
  intros Ho. unfold pdf_call, option_map, calc_pdf. rewrite thetas_z.
  unfold nonzero. rewrite !filter_map_comm, !map_map.
  change (fun x => flag (ri x)) with (fun i => if Nat.eqb (ri i) 0 then 0%nat else 1%nat).
  set (fl := filter (fun a => negb (Reqb (kept_z z rw tw ri ti a) 0)) (seq 0 n)).
  assert (Hfl : fl = [] <-> forall i, (i < n)%nat -> scattered_out ri ti i -> exit_weight rw tw ri ti i <> 0 -> z i = 0).
  { assert (NE : fl <> [] <-> exists i, (i < n)%nat /\ negb (Reqb (kept_z z rw tw ri ti i) 0) = true).
    { unfold fl. rewrite <- (map_nonempty _ (fun i => i) n). now rewrite map_id. }
    split.
    - intros E i Hi Hs Hw. destruct (Req_dec (z i) 0) as [|Hz]; [assumption|exfalso].
      apply (proj2 NE); [|exact E]. exists i. split; [exact Hi|]. apply negb_Reqb.
      rewrite (kept_z_value _ _ _ _ _ _ n Ho Hi). apply scatteredb_true in Hs. rewrite Hs.
      rewrite (proj2 (Reqb_false _ 0) Hw). exact Hz.
    - intros H. destruct fl as [|j l] eqn:E; [reflexivity|exfalso].
      destruct (proj1 NE ltac:(discriminate)) as (i & Hi & Hk). apply negb_Reqb in Hk.
      rewrite (kept_z_value _ _ _ _ _ _ n Ho Hi) in Hk.
      destruct (scatteredb ri ti i) eqn:Es; cbn [andb] in Hk; [|lra].
      destruct (Reqb (exit_weight rw tw ri ti i) 0) eqn:Ew; cbn [negb] in Hk; [lra|].
      apply Hk, H; [exact Hi|now apply scatteredb_true|now apply Reqb_false]. }
  destruct fl as [|j l] eqn:E.
  - cbn [map app]. split.
    + intros H. injection H as H. split; [now symmetry|]. now apply Hfl.
    + intros [-> _]. reflexivity.
  - cbn [map app]. match goal with |- context [gaussian_kde ?a ?b ?c] => destruct (gaussian_kde a b c) as [f|er] end; cbn [bind].
    + split; [discriminate|]. intros [_ H]. apply Hfl in H. discriminate.
    + split; [discriminate|]. intros [_ H]. apply Hfl in H. discriminate.
Qed.

Lemma pdf_only_scattered bw n z z' radius rw rw' tw tw' ri ti :
  one_exit n ri ti ->
  (forall i, (i < n)%nat -> scattered_out ri ti i ->
     z i = z' i /\ exit_weight rw tw ri ti i = exit_weight rw' tw' ri ti i) ->
  pdf_call bw n z radius rw tw ri ti None = pdf_call bw n z' radius rw' tw' ri ti None.
Proof.
  intros Ho H. unfold pdf_call, option_map, calc_pdf. rewrite !thetas_z, !weights_map.
  assert (Ez : map (kept_z z rw tw ri ti) (seq 0 n) = map (kept_z z' rw' tw' ri ti) (seq 0 n)).
  { apply map_ext_in. intros i Hi. apply in_seq in Hi. rewrite !(kept_z_value _ _ _ _ _ _ n Ho) by lia.
    destruct (scatteredb ri ti i) eqn:Es; [|reflexivity].
    destruct (H i ltac:(lia) ltac:(now apply scatteredb_true)) as [-> ->]. reflexivity. }
  assert (Ew : map (kept_weight rw tw ri ti) (seq 0 n) = map (kept_weight rw' tw' ri ti) (seq 0 n)).
  { apply map_ext_in. intros i Hi. apply in_seq in Hi. rewrite !(kept_weight_value _ _ _ _ _ n Ho) by lia.
    destruct (scatteredb ri ti i) eqn:Es; [|reflexivity].
    destruct (H i ltac:(lia) ltac:(now apply scatteredb_true)) as [_ ->]. reflexivity. }
  now rewrite Ez, Ew.
Qed.

Lemma pdf_overwrites bw n z radius rw tw ri ti kz p after :
  pdf_call bw n z radius rw tw ri ti kz = Ok (p, after) ->
  after = map (fun i => if Nat.eqb (ri i) 0 then 0%nat else 1%nat) (seq 0 n)
  /\ (after = map ri (seq 0 n) <-> forall i, (i < n)%nat -> (ri i <= 1)%nat).
Proof.
  intros H.
  assert (E : after = map (fun i => if Nat.eqb (ri i) 0 then 0%nat else 1%nat) (seq 0 n)).
  { unfold pdf_call, calc_pdf in H.
    match type of H with (match ?e with _ => _ end) = _ => destruct e as [|x e'] end.
    - apply Ok_inj in H. apply (f_equal snd) in H. cbn [snd] in H. rewrite map_map in H. symmetry. exact H.
    - match type of H with bind ?g _ = _ => destruct g end; cbn [bind] in H; [|discriminate].
      apply Ok_inj in H. apply (f_equal snd) in H. cbn [snd] in H. rewrite map_map in H. symmetry. exact H. }
  split; [exact E|]. rewrite E. split.
  - intros M i Hi. 
    assert (N : nth i (map (fun i => if Nat.eqb (ri i) 0 then 0%nat else 1%nat) (seq 0 n)) 0%nat = nth i (map ri (seq 0 n)) 0%nat) by now rewrite M.
    rewrite !(nth_map_in _ _ i 0%nat) in N by (rewrite seq_length; exact Hi). rewrite seq_nth in N by exact Hi. cbn [Nat.add] in N.
    destruct (Nat.eqb (ri i) 0); lia.
  - intros M. apply map_ext_in. intros i Hi. apply in_seq in Hi. specialize (M i ltac:(lia)).
    destruct (ri i) as [|[|k]]; cbn; lia.
Qed.
