(** C17, C86, C141: error cases and further consequences found missing when
    the theorems were tested against wrong programs. *)
From Coq Require Import Lra Lia.
From Verif Require Import Num Spec Spec_scatter Spec_optics Spec_reflection Spec_fields L_num M_montecarlo M_model M_structure
  M_reflection L_reflection L_sizes L_dcs M_fields L_fields L_exits Properties_reflection.
From Coquelicot Require Import Complex.
Open Scope R_scope.

(** C17 (Properties_montecarlo.v): mixing in Mie steps needs at least one event. *)
Theorem C17_no_events : forall ntraj mu mm fr rm, 0 <= fr <= 1 ->
  sample_step ntraj mu (Some mm) fr [] rm = Err IndexError
  /\ sample_step ntraj mu None fr [] rm = Ok [].
Proof.
  intros ntraj mu mm fr rm H. unfold sample_step.
  rewrite (proj2 (Rltb_false 1 fr)), (proj2 (Rltb_false fr 0)) by lra. split; reflexivity.
Qed.
Print Assumptions C17_no_events.

(** C86: the polydisperse differential cross section lies between the extremes
    of the monodisperse ones, which are the Mie angular distributions for the
    size parameters pi n d / lambda. *)
Theorem C86_poly_cross_section : forall factorial ang x xe vf l wavelen n sd theta lo hi,
  (forall s, In s l -> species_ok factorial s) ->
  (forall s d, In s l -> 0 <= d -> Rabs (d - sp_d s) <= 3 * width (sp_pdi s) * sp_d s ->
     lo <= fst (ang [PI * n * d / wavelen] theta) <= hi /\ lo <= snd (ang [PI * n * d / wavelen] theta) <= hi) ->
  exists p s, differential_cross_section factorial ang 1 x xe vf S_none (Some "polydisperse"%string) (Some (l, wavelen, n)) sd theta = Ok (Some p, Some s)
    /\ lo * fold_right Rplus 0 (map sp_c l) <= p <= hi * fold_right Rplus 0 (map sp_c l)
    /\ lo * fold_right Rplus 0 (map sp_c l) <= s <= hi * fold_right Rplus 0 (map sp_c l).
Proof.
  intros factorial ang x xe vf l lam n sd theta lo hi Hs Hf.
  assert (Ex : forall d, size_parameter lam n (d / 2) = PI * n * d / lam) by (intros d; unfold size_parameter, Rdiv; rewrite <- !Rmult_assoc; f_equal; lra).
  destruct (C86_poly_is_average factorial (fun d => fst (ang [size_parameter lam n (d / 2)] theta)) l lo hi Hs) as (p & Ep & Bp).
  { intros s d H1 H2 H3. rewrite Ex. apply (Hf s d H1 H2 H3). }
  destruct (C86_poly_is_average factorial (fun d => snd (ang [size_parameter lam n (d / 2)] theta)) l lo hi Hs) as (q & Eq & Bq).
  { intros s d H1 H2 H3. rewrite Ex. apply (Hf s d H1 H2 H3). }
  exists p, q. split; [|split; [exact Bp|exact Bq]].
  unfold differential_cross_section, form_part. cbn [String.eqb Ascii.eqb Bool.eqb Nat.ltb Nat.leb bind structure_part].
  rewrite Ep, Eq. cbn [nmap2 fst snd]. rewrite !Rmult_1_l. reflexivity.
Qed.
Print Assumptions C86_poly_cross_section.

(** C141.  calc_fields raises nothing but IndexError, and exactly if some
    trajectory has fewer sampled angles than events to scatter, or (with
    tir_refl_bool) if some trajectory's total reflection comes after the last
    sampled angle of some trajectory. *)
Lemma jones_total amps : forall tail e, (length tail <= length amps)%nat -> exists l, jones_loop amps e tail = Ok l /\ length l = length tail.
Proof.
  induction amps as [|s ss IH]; intros [|f t] e H; cbn in H; try (cbn; eauto; fail); [lia|].
  cbn [jones_loop]. destruct (IH t (jones_step s e) ltac:(cbn in H; lia)) as (l & -> & El). cbn [bind]. eexists; split; [reflexivity|]. cbn. now rewrite El.
Qed.
Lemma jones_short amps : forall tail e, (length amps < length tail)%nat -> jones_loop amps e tail = Err IndexError.
Proof.
  induction amps as [|s ss IH]; intros [|f t] e H; cbn in H; try lia; [reflexivity|].
  cbn [jones_loop]. rewrite (IH t (jones_step s e)) by lia. reflexivity.
Qed.
Lemma rotate_total angs : forall tail, (length tail <= length angs)%nat -> exists l, rotate_loop angs tail = Ok l.
Proof.
  induction angs as [|a angs IH]; intros [|f t] H; cbn in H; try (cbn; eauto; fail); [lia|].
  cbn [rotate_loop map]. destruct (IH (map (rot_field a) t)) as [l ->]; [rewrite map_length; lia|]. cbn [bind]. eauto.
Qed.
Lemma column_ok k amps angs steps col : length amps = length angs -> (length col <= length amps + 2)%nat ->
  exists fs, fields_column k amps angs steps col = Ok fs.
Proof.
  intros E H. unfold fields_column. destruct col as [|f0 [|f1 tail]]; eauto. cbn in H.
  destruct (jones_total amps tail (fx f0, fy f0) ltac:(lia)) as (l & -> & El). cbn [bind].
  destruct (rotate_total angs l ltac:(lia)) as [l2 ->]. cbn [bind]. eauto.
Qed.
Lemma column_short k amps angs steps col : (length amps + 2 < length col)%nat -> fields_column k amps angs steps col = Err IndexError.
Proof.
  intros H. unfold fields_column. destruct col as [|f0 [|f1 tail]]; cbn in H; try lia. rewrite jones_short by lia. reflexivity.
Qed.
Lemma overwrite_length rows th angs : length (overwrite_rows rows th angs) = length angs.
Proof. unfold overwrite_rows. rewrite map_length, combine_length, seq_length. lia. Qed.
Lemma mapM_first_error {A B} (f : A -> result B) l a :
  (forall x, In x l -> (exists y, f x = Ok y) \/ f x = Err IndexError) -> In a l -> f a = Err IndexError -> mapM f l = Err IndexError.
Proof.
  induction l as [|x l IH]; intros H Ha E; [destruct Ha|]. cbn [mapM].
  destruct (H x (or_introl eq_refl)) as [[y Ey]|Ey]; rewrite Ey; [|reflexivity]. cbn [bind].
  rewrite IH; [reflexivity|intros; apply H; now right| |exact E].
  destruct Ha as [->|Ha]; [congruence|exact Ha].
Qed.
Lemma mapM_total {A B} (f : A -> result B) l : (forall x, In x l -> exists y, f x = Ok y) -> exists out, mapM f l = Ok out.
Proof.
  induction l as [|a l IH]; intros H; cbn; [eauto|]. destruct (H a (or_introl eq_refl)) as [b ->]. cbn [bind].
  destruct IH as [out ->]; [intros; apply H; now right|]. cbn. eauto.
Qed.

(** The number of the event of the first total reflection, 0 if there is none. *)
Definition first_event (l : list bool) (e : nat) : Prop :=
  (e = 0%nat /\ never_true l) \/ exists i, e = S i /\ first_true l i.
Definition enough_angles (use_tir : bool) (trs : list ftraj) : Prop :=
  (forall t, In t trs -> (length (ft_fields t) <= length (ft_angles t) + 2)%nat)
  /\ (use_tir = true -> forall t t' e, In t trs -> In t' trs -> first_event (ft_tir t') e ->
        (e - 2 < length (ft_angles t))%nat).

Theorem C141_fields_errors : forall amp n_sample wavelen use_tir trs,
  (enough_angles use_tir trs -> exists fss angs, calc_fields amp n_sample wavelen use_tir trs = Ok (fss, angs))
  /\ (~ enough_angles use_tir trs -> calc_fields amp n_sample wavelen use_tir trs = Err IndexError).
Proof.
  intros amp n lam tir trs.
  assert (Hfe : forall l, first_event l (argmax_padded l)).
  { intros l. unfold first_event. destruct (argmax_padded_spec l) as [H|(i & E & H & _)]; [left; exact H|right; eauto]. }
  assert (Huniq : forall l e, first_event l e -> e = argmax_padded l).
  { intros l e He. pose proof (Hfe l) as Hx. destruct He as [[-> Hn]|(i & -> & Hi)], Hx as [[-> Hn']|(j & -> & Hj)].
    - reflexivity.
    - exfalso. destruct Hj as [Hj _]. rewrite (Hn j) in Hj. discriminate.
    - exfalso. destruct Hi as [Hi _]. rewrite (Hn' i) in Hi. discriminate.
    - f_equal. destruct Hi as [Hi1 Hi2], Hj as [Hj1 Hj2]. destruct (Nat.lt_trichotomy i j) as [L|[L|L]]; [|exact L|].
      + rewrite (Hj2 i L) in Hi1. discriminate.
      + rewrite (Hi2 j L) in Hj1. discriminate. }
  unfold calc_fields. set (rows := map tir_row trs).
  set (bad := tir && existsb (fun t => existsb (fun r => Nat.leb (length (ft_angles t)) r) rows) trs).
  set (f := fun t => fields_column (field_k n lam) _ _ _ _).
  assert (Hbad : bad = false <-> (tir = true -> forall t t' e, In t trs -> In t' trs -> first_event (ft_tir t') e -> (e - 2 < length (ft_angles t))%nat)).
  { unfold bad. destruct tir; cbn [andb]; [|split; [discriminate|reflexivity]]. split.
    - intros H _ t t' e Ht Ht' He. apply Huniq in He as ->.
      destruct (Nat.lt_ge_cases (argmax_padded (ft_tir t') - 2) (length (ft_angles t))) as [L|L]; [exact L|exfalso].
      assert (existsb (fun t => existsb (fun r => Nat.leb (length (ft_angles t)) r) rows) trs = true); [|congruence].
      apply existsb_exists. exists t. split; [exact Ht|]. apply existsb_exists. exists (tir_row t'). split; [now apply in_map|].
      apply Nat.leb_le. exact L.
    - intros H. destruct (existsb _ trs) eqn:E; [|reflexivity]. exfalso.
      apply existsb_exists in E as (t & Ht & E). apply existsb_exists in E as (r & Hr & E). apply in_map_iff in Hr as (t' & <- & Ht').
      apply Nat.leb_le in E. specialize (H eq_refl t t' _ Ht Ht' (Hfe _)). unfold tir_row in E. lia. }
  assert (Hlen : forall t, length (map (fun a : R * R => amp (fst a) (snd a)) (ft_angles t))
      = length (if tir then overwrite_rows rows (tir_angle t) (map trig (ft_angles t)) else map trig (ft_angles t))).
  { intros t. destruct tir; rewrite ?overwrite_length, !map_length; reflexivity. }
  assert (Hf : forall t, (length (ft_fields t) <= length (ft_angles t) + 2 -> exists fs, f t = Ok fs)%nat
      /\ (length (ft_angles t) + 2 < length (ft_fields t) -> f t = Err IndexError)%nat).
  { intros t. split; intros H; unfold f; [apply column_ok; [apply Hlen|rewrite map_length; exact H]|apply column_short; rewrite map_length; exact H]. }
  split.
  - intros [He Ht]. rewrite (proj2 Hbad Ht). destruct (mapM_total f trs) as [out ->]; [|cbn [bind]; eauto].
    intros t Hin. apply Hf, He, Hin.
  - intros Hne. destruct bad eqn:Eb; [reflexivity|].
    assert (Hex : exists t, In t trs /\ (length (ft_angles t) + 2 < length (ft_fields t))%nat).
    { destruct (existsb (fun t => Nat.ltb (length (ft_angles t) + 2) (length (ft_fields t))) trs) eqn:E.
      - apply existsb_exists in E as (t & Hin & Hlt). apply Nat.ltb_lt in Hlt. eauto.
      - exfalso. apply Hne. split; [|now apply Hbad]. intros t Hin.
        destruct (Nat.lt_ge_cases (length (ft_angles t) + 2) (length (ft_fields t))) as [L|L]; [|exact L].
        assert (existsb (fun t => Nat.ltb (length (ft_angles t) + 2) (length (ft_fields t))) trs = true); [|congruence].
        apply existsb_exists. exists t. split; [exact Hin|now apply Nat.ltb_lt]. }
    destruct Hex as (t & Hin & Hlt). rewrite (mapM_first_error f trs t); [reflexivity| |exact Hin|now apply Hf].
    intros x _. destruct (Nat.lt_ge_cases (length (ft_angles x) + 2) (length (ft_fields x))) as [L|L]; [right|left]; now apply Hf.
Qed.
Print Assumptions C141_fields_errors.

Example C141_case :
  enough_angles true [mk_ft [(1, 2)] [1; 1] [] [fzero; fzero; fzero] [false; true; false]]
  /\ ~ enough_angles true [mk_ft [(1, 2)] [1; 1; 1] [] [fzero; fzero; fzero; fzero] [false; false]]
  /\ ~ enough_angles true [mk_ft [(1, 2)] [1; 1] [] [fzero; fzero; fzero] [false; false; true]].
Proof.
  split; [|split].
  - split; [intros t [<-|[]]; cbn; lia|]. intros _ t t' e [<-|[]] [<-|[]] He. cbn in *.
    destruct He as [[-> _]|(i & -> & Hi1 & Hi2)]; [lia|]. destruct i as [|[|[|i]]]; cbn in Hi1; try lia; try discriminate. destruct i; discriminate.
  - intros [H _]. specialize (H _ (or_introl eq_refl)). cbn in H. lia.
  - intros [_ H]. specialize (H eq_refl _ _ 3%nat (or_introl eq_refl) (or_introl eq_refl)). cbn in H.
    assert (X : first_event [false; false; true] 3).
    { right. exists 2%nat. split; [reflexivity|]. split; [reflexivity|]. intros [|[|j]] Hj; try reflexivity; lia. }
    specialize (H X). lia.
Qed.
