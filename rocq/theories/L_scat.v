(** Proofs about calc_scat (C112-C116). *)
From Verif Require Import Num Spec Spec_scatter Spec_optics L_num L_trapezoid M_model M_montecarlo M_structure M_reflection
  M_refractive_index M_scat L_montecarlo2 L_slots L_fresnel L_structure L_structure2 L_poly L_reflection Spec_reflection L_reflection2 L_reflection3
  L_reflection4 L_sizes L_units L_dcs Spec_scat.
From Coquelicot Require Import Complex.
From Coq Require Import Lia Lra.
Open Scope R_scope.

(** * Number density *)
Lemma density_term_value r r2 c c' : 0 < r -> 0 < r2 -> 0 <= c -> 0 <= c' -> 0 < c + c' ->
  density_term r r2 c c' = Some (c / (c * r ^ 3 + c' * r2 ^ 3)).
Proof.
  intros Hr Hr2 Hc Hc' Hs. pose proof (pow_lt _ 3 Hr). pose proof (pow_lt _ 3 Hr2). unfold density_term.
  destruct (Reqb c 0) eqn:E.
  - apply Reqb_true in E. subst c. rewrite (proj2 (Reqb_false _ _)).
    + f_equal. unfold Rdiv. ring.
    + apply Rgt_not_eq. apply Rmult_lt_0_compat; lra.
  - apply Reqb_false in E. assert (0 < c) by lra.
    assert (0 <= r2 ^ 3 * c' / c) by (apply Rmult_le_pos; [apply Rmult_le_pos; lra|left; now apply Rinv_0_lt_compat]).
    unfold ndiv. rewrite (proj2 (Reqb_false _ _)) by lra. f_equal. field.
    assert (0 < c * r ^ 3) by (apply Rmult_lt_0_compat; lra).
    assert (0 <= c' * r2 ^ 3) by (apply Rmult_le_pos; lra).
    repeat split; apply Rgt_not_eq; lra.
Qed.

Lemma scat_rho_value vf radius radius2 c0 c1 :
  0 < Rmax_list radius -> 0 < Rmax_list radius2 -> 0 <= c0 -> 0 <= c1 -> c0 + c1 = 1 ->
  forall conc, default_conc conc = (c0, c1) ->
  exists rho, scat_rho vf radius radius2 conc = Some rho
    /\ rho * (c0 * sphere_volume (Rmax_list radius) + c1 * sphere_volume (Rmax_list radius2)) = vf
    /\ (0 < vf -> 0 < rho).
Proof.
  intros Hr Hr2 H0 H1 Hs conc Ec. unfold scat_rho. rewrite Ec. cbv zeta.
  rewrite !density_term_value by lra. cbn [nmap nmap2].
  set (r := Rmax_list radius) in *. set (r2 := Rmax_list radius2) in *.
  pose proof (pow_lt _ 3 Hr). pose proof (pow_lt _ 3 Hr2). pose proof PI_RGT_0.
  assert (0 < c0 * r ^ 3 + c1 * r2 ^ 3).
  { destruct (Rle_lt_or_eq_dec _ _ H0) as [P|<-].
    - assert (0 < c0 * r ^ 3) by (apply Rmult_lt_0_compat; lra).
      assert (0 <= c1 * r2 ^ 3) by (apply Rmult_le_pos; lra). lra.
    - replace c1 with 1 by lra. lra. }
  set (D := c0 * r ^ 3 + c1 * r2 ^ 3) in *.
  replace (c1 * r2 ^ 3 + c0 * r ^ 3) with D by (unfold D; ring).
  eexists. split; [reflexivity|].
  replace (c0 / D + c1 / D) with (/ D) by (replace c1 with (1 - c0) by lra; field; lra).
  split.
  - unfold sphere_volume.
    replace (c0 * (4 / 3 * PI * r ^ 3) + c1 * (4 / 3 * PI * r2 ^ 3)) with (4 / 3 * PI * D) by (unfold D; ring).
    field. split; lra.
  - intros Hv. apply Rmult_lt_0_compat; [|now apply Rinv_0_lt_compat].
    apply Rmult_lt_0_compat; [lra|]. apply Rinv_0_lt_compat. lra.
Qed.

(** * The phase function *)
Lemma phase_value dcs P S k g : 0 < k ->
  (forall t, In t g -> dcs t = Ok (Some (P t), Some (S t))) ->
  phase_function dcs k g
  = Ok (phase_function_p (map P g) (map S g), Some (cross_sec k (2 * PI) g (unpol P S))).
Proof.
  intros Hk H. unfold phase_function.
  rewrite (all_angles_ext dcs (fun t => Ok (Some (P t), Some (S t)))) by exact H.
  rewrite all_angles_ok. cbn [bind]. rewrite !map_map. cbn [fst snd]. rewrite !get_all_somes.
  f_equal. f_equal. f_equal.
  rewrite !(integrate_map _ (fun _ => 1 / Rabs k ^ 2)). rewrite Rabs_pos_eq by lra.
  unfold cross_sec.
  rewrite (trap_int_ext (fun t => P t * (1 / k ^ 2) * sin t) (fun t => / k ^ 2 * (P t * sin t))) by (intros; field; lra).
  rewrite (trap_int_ext (fun t => S t * (1 / k ^ 2) * sin t) (fun t => / k ^ 2 * (S t * sin t))) by (intros; field; lra).
  rewrite (trap_int_ext (fun t => unpol P S t * sin t) (fun t => / 2 * (P t * sin t + S t * sin t)))
    by (intros; unfold unpol; field).
  rewrite !trap_int_scale, trap_int_plus. field. lra.
Qed.

Lemma size_parameter_pos w k r : 0 < w -> 0 < k -> 0 < r -> 0 < size_parameter w k r.
Proof.
  intros Hw Hk Hr. pose proof PI_RGT_0. unfold size_parameter. apply Rmult_lt_0_compat; [|now apply Rinv_0_lt_compat].
  apply Rmult_lt_0_compat; [apply Rmult_lt_0_compat; lra|exact Hr].
Qed.

Lemma scat_phase_ok factorial ang special I form st n x_eff :
  form_ok factorial (length (s_np I)) form (scat_poly I n) ->
  structure_ok (length (s_np I)) (s_vf I) st (scat_poly I n) (s_sdata I) ->
  (forall m y t, 0 <= fst (ang m y t) /\ 0 <= snd (ang m y t)) ->
  0 < n -> 0 < s_wavelen I -> 0 < s_min I <= PI -> s_radius I <> [] -> Forall (fun r => 0 < r) (s_radius I) ->
  Exists (fun a => a <> 0) (match x_eff with Some xe => xe | None => map (size_parameter (s_wavelen I) n) (s_radius I) end) ->
  exists P S, (forall t, In t (scat_grid I) ->
        scat_dcs factorial ang I form st n x_eff t = Ok (Some (P t), Some (S t)) /\ 0 <= P t /\ 0 <= S t)
    /\ scat_phase factorial ang special I form st (RtoC n) x_eff
       = Ok (phase_function_p (map P (scat_grid I)) (map S (scat_grid I)),
             Some (cross_sec (2 * PI * n / s_wavelen I) (2 * PI) (scat_grid I) (unpol P S))).
Proof.
  intros Hf Hs Ha Hn Hw Hm Hne Hr Hx. set (dcs := scat_dcs factorial ang I form st n x_eff).
  assert (Ok1 : forall t, 0 < t <= PI -> exists p s, dcs t = Ok (Some p, Some s) /\ 0 <= p /\ 0 <= s).
  { intros t Ht.
    destruct (dcs_ok factorial (ang (map (fun np => Cdiv np (RtoC n)) (s_np I))) (length (s_np I))
      (map (size_parameter (s_wavelen I) n) (s_radius I)) x_eff (s_vf I) st form (scat_poly I n) (s_sdata I) t)
      as (S & fp & fs & S0 & P0 & Q0 & _ & _ & E); try assumption.
    - intros. apply Ha.
    - exists (S * fp), (S * fs). split; [exact E|]. split; now apply Rmult_le_pos. }
  exists (fun t => match dcs t with Ok (Some p, _) => p | _ => 0 end).
  exists (fun t => match dcs t with Ok (_, Some s) => s | _ => 0 end).
  assert (Hg : forall t, In t (scat_grid I) -> 0 < t <= PI).
  { intros t Ht. apply linspace_in in Ht; lra. }
  split.
  - intros t Ht. destruct (Ok1 t (Hg t Ht)) as (p & s & E & P0 & S0). rewrite E. auto.
  - unfold scat_phase. unfold RtoC at 1. cbn [snd].
    rewrite (proj2 (Reqb_true 0 0)) by reflexivity. cbn [negb]. cbv zeta.
    rewrite map_length. change (fst (RtoC n)) with n.
    fold (scat_grid I).
    rewrite (phase_value _ (fun t => match dcs t with Ok (Some p, _) => p | _ => 0 end)
                           (fun t => match dcs t with Ok (_, Some s) => s | _ => 0 end)).
    + reflexivity.
    + pose proof PI_RGT_0. apply Rmult_lt_0_compat; [|now apply Rinv_0_lt_compat]. nra.
    + intros t Ht. destruct (Ok1 t (Hg t Ht)) as (p & s & E & P0 & S0). rewrite E. exact E.
Qed.

Lemma scat_medium_ok I n : surroundings I n -> s_radius I <> [] -> Forall (fun r => 0 < r) (s_radius I) ->
  0 < n -> 0 < s_wavelen I ->
  exists x_eff, scat_medium I = Ok (RtoC n, x_eff)
    /\ x_eff = (if s_emform I then None else if s_emstruct I then
        Some (map (fun r => Cmod (Cmult (s_nsample I) (RtoC (size_parameter (s_wavelen I) 1 r)))) (s_radius I)) else None)
    /\ Exists (fun a => a <> 0) (match x_eff with Some xe => xe | None => map (size_parameter (s_wavelen I) n) (s_radius I) end).
Proof.
  intros Hs Hne Hr Hn Hw.
  assert (D : Exists (fun a => a <> 0) (map (size_parameter (s_wavelen I) n) (s_radius I))).
  { destruct (s_radius I) as [|r rs]; [congruence|]. inversion Hr; subst. left. apply Rgt_not_eq.
    apply size_parameter_pos; assumption. }
  unfold scat_medium, surroundings in *. destruct (s_emform I).
  - rewrite Hs. eexists. split; [reflexivity|]. split; [reflexivity|]. exact D.
  - destruct Hs as [-> Hz]. destruct (s_emstruct I).
    + eexists. split; [reflexivity|]. split; [reflexivity|].
      destruct (s_radius I) as [|r rs]; [congruence|]. inversion Hr; subst. left.
      apply Rgt_not_eq, Cmod_gt_0, Cmult_neq_0; [now apply Hz|]. apply RtoC_neq, Rgt_not_eq.
      apply size_parameter_pos; lra.
    + eexists. split; [reflexivity|]. split; [reflexivity|]. exact D.
Qed.

Lemma scat_types_ok I : (s_poly I = true -> s_pdi I <> None /\ length (s_np I) = 1%nat) ->
  scat_types I = Ok (form_used I, structure_used I).
Proof.
  intros H. unfold scat_types, form_used, structure_used. destruct (s_poly I); [|reflexivity].
  destruct H as [H1 H2]; [reflexivity|]. destruct (s_pdi I); [|congruence]. rewrite H2. reflexivity.
Qed.

Lemma phase_dist (P S : R -> R) g : (forall t, In t g -> 0 <= P t /\ 0 <= S t) ->
  let s := total (map (fun t => P t + S t) g) in s <> 0 ->
  phase_function_p (map P g) (map S g) = map (fun t => Some ((P t + S t) / s)) g.
Proof.
  intros H s Hs. unfold phase_function_p, M_montecarlo.normalise.
  assert (E : map2 Rplus (map P g) (map S g) = map (fun t => P t + S t) g).
  { clear. induction g as [|t g IH]; [reflexivity|]. cbn. now rewrite IH. }
  rewrite E, Rsum_total. fold s. cbv zeta. rewrite (proj2 (Reqb_false s 0)) by exact Hs. now rewrite map_map.
Qed.

Lemma max_other I : s_radius I <> [] -> Forall (fun r => 0 < r) (s_radius I) ->
  (forall r2, s_radius2 I = Some r2 -> r2 <> [] /\ Forall (fun r => 0 < r) r2) ->
  0 < Rmax_list (s_radius I) /\ 0 < Rmax_list (other_radius I).
Proof.
  intros H1 H2 H3. assert (Rr : 0 < Rmax_list (s_radius I)) by (apply Rmax_list_pos; now apply Forall_Exists_pos).
  split; [exact Rr|]. unfold other_radius. destruct (s_radius2 I) as [r2|]; [|exact Rr].
  destruct (H3 r2 eq_refl). apply Rmax_list_pos. now apply Forall_Exists_pos.
Qed.

Lemma rho_of_input I : s_radius I <> [] -> Forall (fun r => 0 < r) (s_radius I) ->
  (forall r2, s_radius2 I = Some r2 -> r2 <> [] /\ Forall (fun r => 0 < r) r2) ->
  (forall c0 c1, s_conc I = Some (c0, c1) -> 0 <= c0 /\ 0 <= c1 /\ c0 + c1 = 1) ->
  exists rho, scat_rho (s_vf I) (s_radius I) (other_radius I) (s_conc I) = Some rho
    /\ rho * mean_volume I = s_vf I /\ (0 < s_vf I -> 0 < rho).
Proof.
  intros H1 H2 H3 H4. destruct (max_other I H1 H2 H3) as [M1 M2].
  unfold mean_volume. fold (other_radius I). destruct (s_conc I) as [[c0 c1]|] eqn:E.
  - destruct (H4 c0 c1 eq_refl) as (A & B & D).
    exact (scat_rho_value (s_vf I) _ _ c0 c1 M1 M2 A B D (Some (c0, c1)) eq_refl).
  - destruct (scat_rho_value (s_vf I) _ _ 1 0 M1 M2) with (conc := @None (R * R)) as (rho & E1 & E2 & E3); try lra; try reflexivity.
    exists rho. split; [exact E1|]. split; [|exact E3]. rewrite <- E2. ring.
Qed.

Lemma calc_scat_ok factorial ang special I n :
  scat_ok factorial I n -> surroundings I n -> s_fine I <= 0 ->
  (forall m y t, 0 <= fst (ang m y t) /\ 0 <= snd (ang m y t)) ->
  exists o P S x_eff rho, calc_scat factorial ang special I = Ok o
    /\ scat_medium I = Ok (RtoC n, x_eff)
    /\ scat_rho (s_vf I) (s_radius I) (other_radius I) (s_conc I) = Some rho
    /\ rho * mean_volume I = s_vf I /\ 0 < rho
    /\ (forall t, In t (scat_grid I) ->
        scat_dcs factorial ang I (form_used I) (structure_used I) n x_eff t = Ok (Some (P t), Some (S t)) /\ 0 <= P t /\ 0 <= S t)
    /\ o_p o = phase_function_p (map P (scat_grid I)) (map S (scat_grid I))
    /\ o_mu o = Some (rho * cross_sec (2 * PI * n / s_wavelen I) (2 * PI) (scat_grid I) (unpol P S))
    /\ o_mie o = None /\ o_muabs o = 0.
Proof.
  intros (H1 & H2 & H3 & H4 & H5 & H6 & H7 & H8 & H9 & H10 & H11) Hs Hf Ha.
  destruct (scat_medium_ok I n Hs H1 H2 H5 H6) as (x_eff & Em & _ & Hx).
  destruct (rho_of_input I H1 H2 H3 H4) as (rho & Er & Ev & Hr).
  destruct (scat_phase_ok factorial ang special I (form_used I) (structure_used I) n x_eff) as (P & S & HPS & Ep); try assumption.
  unfold calc_scat. rewrite Em. cbn [bind]. rewrite (scat_types_ok I H9). cbn [bind]. rewrite Ep, Er. cbn [bind fst snd nmap2].
  rewrite (proj2 (Rltb_false _ _)) by lra.
  eexists _, P, S, x_eff, rho. split; [reflexivity|]. cbn [o_p o_mu o_mie o_muabs].
  repeat (split; [solve [reflexivity|assumption|auto]|]).
  unfold RtoC, Rdiv. cbn [snd]. ring.
Qed.

(** * Agreement with the single-scattering model *)
Lemma same_poly fsolve I J n : same_sample fsolve I J -> s_radius J <> [] ->
  (forall r2, s_radius2 J = Some r2 -> r2 <> []) -> refl_poly I n = scat_poly J n.
Proof.
  intros (E1 & E2 & E3 & E4 & E5 & E6 & E7 & E8 & E9 & E10 & E11 & E12 & E13 & E14 & E15 & E16 & E17 & E18 & E19) Hr Hr2.
  unfold refl_poly, scat_poly, other_radius. rewrite E1, E4, E5, E6, E7.
  destruct E19 as [->|[Hc Hl]].
  - destruct (s_conc J) as [[c0 c1]|]; reflexivity.
  - destruct (s_conc J) as [[c0 c1]|]; [|congruence]. cbn [default_conc].
    destruct (s_pdi J) as [[p0 p1]|]; [|reflexivity].
    destruct (s_radius J) as [|r [|r' rs]]; cbn in Hl; try lia.
    destruct (s_radius2 J) as [[|q qs]|]; cbn; try reflexivity. exfalso. now apply (Hr2 [] eq_refl).
Qed.

Lemma rho_agree vf r r2 conc rho : scat_rho vf r r2 conc = Some rho -> 0 < Rmax_list r -> 0 < Rmax_list r2 ->
  (forall c0 c1, conc = Some (c0, c1) -> 0 < c0 /\ 0 <= c1 /\ c0 + c1 = 1) ->
  reflection_rho vf r r2 conc = rho.
Proof.
  intros E Hr Hr2 Hc. unfold scat_rho, reflection_rho in *. pose proof (pow_lt _ 3 Hr). pose proof (pow_lt _ 3 Hr2).
  pose proof PI_RGT_0.
  destruct conc as [[c0 c1]|]; cbn [default_conc] in E.
  - destruct (Hc c0 c1 eq_refl) as (C0 & C1 & C2). rewrite !density_term_value in E by lra.
    cbn in E. injection E as <-. rewrite (proj2 (Reqb_false c0 0)) by lra. cbn [orb].
    destruct (Reqb c1 0) eqn:E1.
    + apply Reqb_true in E1. subst c1. replace c0 with 1 by lra. unfold number_density. field. lra.
    + apply Reqb_false in E1. assert (0 < c1) by lra.
      assert (0 < c0 * Rmax_list r ^ 3) by (apply Rmult_lt_0_compat; lra).
      assert (0 < c1 * Rmax_list r2 ^ 3) by (apply Rmult_lt_0_compat; lra).
      field. repeat split; apply Rgt_not_eq; lra.
  - rewrite !density_term_value in E by lra. cbn in E. injection E as <-. unfold number_density. field. lra.
Qed.

Lemma same_ok fsolve factorial I J n ne : inputs_ok factorial I n ne -> sample_is fsolve I n ne ->
  same_sample fsolve I J -> scat_ok factorial J n /\ surroundings J n.
Proof.
  intros (H1 & H2 & H3 & H4 & H5 & H6 & H7 & H8 & H9 & H10 & H11 & H12 & H13 & H14 & H15 & H16 & H17 & H18 & H19)
    Hs Hss. pose proof Hss as (E1 & E2 & E3 & E4 & E5 & E6 & E7 & E8 & E9 & E10 & E11 & E12 & E13 & E14 & E15 & E16 & E17 & E18 & E19).
  assert (Ep : refl_poly I n = scat_poly J n).
  { eapply same_poly; [eassumption|congruence|]. intros r2 Hr2. rewrite <- E5 in Hr2. now apply H4. }
  split.
  - repeat split; try lra.
    + congruence.
    + congruence.
    + rewrite <- E5 in H. now apply H4.
    + rewrite <- E5 in H. now apply H4.
    + destruct (E18 c0 c1 H). lra.
    + destruct (E18 c0 c1 H). lra.
    + destruct (E18 c0 c1 H). lra.
    + intros Hp. rewrite E10, E2, Ep in H18. unfold form_used in H18. rewrite H in H18.
      destruct H18 as [X|[X|(_ & _ & l & w & nm & X & _)]]; try discriminate.
      unfold scat_poly in X. rewrite Hp in X. destruct (default_conc (s_conc J)); discriminate.
    + rewrite E10, E2, Ep in H18. unfold form_used in H18. rewrite H in H18.
      destruct H18 as [X|[X|(_ & X & _)]]; try discriminate. exact X.
    + rewrite <- E10, <- E2, <- Ep. exact H18.
    + rewrite <- E11, <- E2, <- E3, <- Ep, <- E12. exact H19.
  - unfold surroundings, sample_is, choose_sample in *. rewrite E16, <- E14, <- E15, E13 in *.
    destruct (i_emform I), (i_emstruct I); cbn in Hs; try discriminate.
    + injection Hs as <- <-. reflexivity.
    + injection Hs as <- <-. split; [reflexivity|]. intros _. now apply H7.
    + injection Hs as <- <-. split; [reflexivity|discriminate].
Qed.

Lemma agreement fsolve factorial ang cabs absorbing special I J n ne :
  inputs_ok factorial I n ne -> sample_is fsolve I n ne -> same_sample fsolve I J ->
  (forall m y t, 0 <= fst (ang m y t) /\ 0 <= snd (ang m y t)) -> (forall m y, 0 <= cabs m y) ->
  exists o mu, calc_scat factorial ang special J = Ok o /\ o_mu o = Some mu /\ 0 <= mu
    /\ (0 < mu -> exists r g l, reflection fsolve factorial ang cabs absorbing I = Ok r
          /\ r_asym r = Some g /\ r_lstar r = Some l /\ -1 < g < 1 /\ l * mu * (1 - g) = 1).
Proof.
  intros HI Hs Hss Ha Hc.
  destruct (same_ok fsolve factorial I J n ne HI Hs Hss) as [SO SU].
  pose proof Hss as (E1 & E2 & E3 & E4 & E5 & E6 & E7 & E8 & E9 & E10 & E11 & E12 & E13 & E14 & E15 & E16 & E17 & E18 & E19).
  destruct (calc_scat_ok factorial ang special J n SO SU E17 Ha)
    as (o & P & S & x_eff & rho & Eo & Em & Er & Ev & Hr & HPS & _ & Emu & _).
  pose proof PI_RGT_0 as HPI.
  assert (SO' := SO). destruct SO' as (S1 & S2 & S3 & S4 & S5 & S6 & S7 & S8 & S9 & S10 & S11).
  assert (Kpos : 0 < 2 * PI * n / s_wavelen J) by (apply Rmult_lt_0_compat; [nra|now apply Rinv_0_lt_compat]).
  set (sg := cross_sec (2 * PI * n / s_wavelen J) (2 * PI) (scat_grid J) (unpol P S)) in *.
  assert (Gin : forall t, In t (scat_grid J) -> 0 <= t <= PI) by (intros t Ht; apply linspace_in in Ht; lra).
  assert (Gasc : ascending (scat_grid J)) by (apply linspace_ascending; lra).
  assert (Sg0 : 0 <= sg).
  { apply sigma_nonneg; try assumption; try lra. intros t Ht. destruct (HPS t Ht) as (_ & X & Y). unfold unpol. lra. }
  exists o, (rho * sg). split; [exact Eo|]. split; [exact Emu|]. split; [apply Rmult_le_pos; lra|].
  intros Hmu.
  destruct (reflection_gives_full fsolve factorial ang cabs absorbing I n ne HI Hs Ha Hc)
    as (A & dcs & P0 & S0 & ER & G & Hg & R1 & R2 & R3 & R4 & R5 & R6 & R7 & R8 & R9 & R10 & R11 & R12 & R13 & Ed).
  assert (EG : total_angles A = scat_grid J).
  { unfold total_angles, scat_grid. rewrite R12, R13, E8, E9, Rplus_0_l. reflexivity. }
  assert (EK : wavenumber A = 2 * PI * n / s_wavelen J) by (unfold wavenumber; now rewrite R2, R11, E4).
  assert (Exe : (match ne with
                 | Some z => Some (map (fun r => Cmod (Cmult z (RtoC (size_parameter (i_wavelen I) 1 r)))) (i_radius I))
                 | None => None end) = x_eff).
  { clear - Hs Em E1 E4 E13 E14 E15 E16. unfold sample_is, choose_sample in Hs. rewrite E16 in Hs.
    unfold scat_medium in Em. rewrite E13, <- E14, <- E15 in Em. rewrite E1, E4.
    destruct (i_emform I), (i_emstruct I); cbn [bind] in Hs; try discriminate;
      injection Hs as Hn Hne; injection Em as Hm Hx; subst; reflexivity. }
  assert (Epol : refl_poly I n = scat_poly J n).
  { eapply same_poly; [eassumption|assumption|]. intros r2 Hr2. now apply S3. }
  assert (EPS : forall t, In t (scat_grid J) -> P0 t = P t /\ S0 t = S t).
  { intros t Ht. destruct (HPS t Ht) as (X & _). destruct (Hg t) as (Y & _); [right; now rewrite EG|].
    rewrite Ed in Y. cbv zeta in Y. rewrite Exe, Epol, E1, E2, E3, E4, E10, E11, E12 in Y.
    unfold scat_dcs in X. rewrite X in Y. injection Y as <- <-. auto. }
  assert (Esg : sigma_scat A P0 S0 = sg).
  { unfold sigma_scat, sg. rewrite EG, EK. apply sigma_ext_fun. intros t Ht. unfold unpol.
    destruct (EPS t Ht) as [-> ->]. reflexivity. }
  assert (Erho : a_rho A = rho).
  { rewrite R9, E1, E3, E5, E6. destruct (max_other J S1 S2 S3) as [M1 M2]. fold (other_radius J). now apply rho_agree. }
  assert (Hsg : 0 < sg).
  { destruct (Rle_lt_or_eq_dec _ _ Sg0) as [|Z]; [assumption|]. rewrite <- Z in Hmu. lra. }
  destruct (gives_pos A dcs P0 S0 Hg) as (N & Ep & E & Q1 & Q2).
  destruct (asymmetry_law A (pos P0) (pos S0) G N ltac:(rewrite Q1, Esg; exact Hsg))
    as (r & g & l & L1 & L2 & L3 & L4 & L5 & L6 & L7).
  exists r, g, l. rewrite ER, Ep. repeat (split; [assumption|]).
  rewrite Q1, Esg in L6. rewrite Erho in L7.
  rewrite (sigma_ext_fun _ _ _ _ (fun t => unpol (pos P0) (pos S0) t + (-1) * (unpol (pos P0) (pos S0) t * cos t))) in L7
    by (intros; ring).
  rewrite sigma_plus, sigma_scale, <- L6 in L7.
  assert (Z : cross_sec (wavenumber A) (2 * PI) (total_angles A) (unpol (pos P0) (pos S0)) = sg) by (fold (sigma_scat A (pos P0) (pos S0)); now rewrite Q1).
  rewrite Z in L7. etransitivity; [|exact L7]. ring.
Qed.
