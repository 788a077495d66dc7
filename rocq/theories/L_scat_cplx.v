(** Proofs about calc_scat in absorbing media and with fields=True (C126-C129). *)
From Coq Require Import Lia Lra.
From Verif Require Import Num Spec Spec_scatter Spec_optics L_num L_trapezoid M_model M_montecarlo M_structure
  M_refractive_index M_reflection M_absorbing M_scat M_scat_cplx Spec_reflection Spec_absorbing Spec_scat Spec_scat_cplx
  L_montecarlo2 L_slots L_sizes L_reflection L_reflection2 L_reflection4 L_poly L_dcs L_absorbing L_sampling L_scat.
From Coquelicot Require Import Complex.
Open Scope R_scope.

Lemma poly_form_at_ok factorial f l : (forall a d, 0 <= f a d) -> (forall s, In s l -> species_ok factorial s) ->
  exists v, poly_form_at factorial f l = Some v /\ 0 <= v.
Proof.
  intros F0. induction l as [|s l IH]; intros Hs.
  - exists 0. cbn. split; [reflexivity|lra].
  - destruct IH as (w & Ew & Hw); [intros; apply Hs; now right|].
    destruct (Hs s (or_introl eq_refl)) as (C0 & C1 & C2 & C3 & C4).
    destruct (grid_ok (sp_d s) (sp_pdi s) C1 C2 C3) as (G1 & G2 & G3 & G4 & G5).
    destruct (size_dist_ok factorial (sp_d s) (sp_pdi s) C1 C2 C3 C4) as (ws & E1 & E2 & E3 & E4).
    cbn [poly_form_at]. unfold poly_integral. rewrite E1, get_all_some, Ew. cbn [nmap2].
    eexists. split; [reflexivity|].
    set (g0 := f (sp_d s / 2)). assert (F1 : forall d, 0 <= g0 d) by (intros; apply F0).
    assert (0 <= trapezoid (map2 Rmult (map g0 (diameter_grid (sp_d s) (pdi_t (sp_pdi s)))) ws)
                   (diameter_grid (sp_d s) (pdi_t (sp_pdi s)))).
    { apply trapezoid_nonneg; [exact G1|].
      generalize (diameter_grid (sp_d s) (pdi_t (sp_pdi s))). intros g. revert g E3. clear - F1.
      induction ws as [|x ws IH]; intros [|d g] E3; cbn; try constructor.
      - inversion E3; subst. apply Rmult_le_pos; [apply F1|assumption].
      - inversion E3; subst. now apply IH. }
    nra.
Qed.

Lemma cplx_form_ok factorial ff nl n k dist x ft poly : form_ok factorial nl ft poly ->
  (forall y a, 0 <= fst (ff y a) /\ 0 <= snd (ff y a)) ->
  exists p s, cplx_form_part factorial ff nl n k dist x ft poly = Ok (Some p, Some s) /\ 0 <= p /\ 0 <= s.
Proof.
  intros Hf Ha. unfold cplx_form_part. destruct Hf as [->|[->|(-> & Hn & l & w & nm & -> & Hs)]].
  - exists 1, 1. split; [reflexivity|lra].
  - exists (fst (ff x (Cmult k (RtoC dist)))), (snd (ff x (Cmult k (RtoC dist)))). split; [reflexivity|apply Ha].
  - change (String.eqb "polydisperse" "sphere") with false. cbv iota.
    change (String.eqb "polydisperse" "polydisperse") with true. cbv iota.
    rewrite nlayers_one by exact Hn.
    destruct (poly_form_at_ok factorial (fun dist d => fst (ff [csize_parameter w n (d / 2)] (Cmult k (RtoC dist)))) l)
      as (p & -> & Hp); [intros; apply Ha|exact Hs|].
    destruct (poly_form_at_ok factorial (fun dist d => snd (ff [csize_parameter w n (d / 2)] (Cmult k (RtoC dist)))) l)
      as (s & -> & Hs'); [intros; apply Ha|exact Hs|].
    exists p, s. auto.
Qed.

Lemma cplx_dcs_ok factorial ff nl n k dist x x_eff vf st ft poly sdata th :
  form_ok factorial nl ft poly -> structure_ok nl vf st poly sdata ->
  (forall y a, 0 <= fst (ff y a) /\ 0 <= snd (ff y a)) ->
  Exists (fun a => a <> 0) (match x_eff with Some xe => xe | None => map Cmod x end) -> 0 < th <= PI ->
  exists S fp fs, 0 <= S /\ 0 <= fp /\ 0 <= fs
    /\ structure_part nl vf (qd_of (match x_eff with Some xe => xe | None => map Cmod x end) th) st poly sdata = Ok (Some S)
    /\ cplx_form_part factorial ff nl n k dist x ft poly = Ok (Some fp, Some fs)
    /\ cplx_dcs factorial ff nl n k dist x x_eff vf st ft poly sdata th = Ok (Some (S * fp), Some (S * fs)).
Proof.
  intros Hf Hs Ha Hx Ht.
  destruct (cplx_form_ok factorial ff nl n k dist x ft poly Hf Ha) as (fp & fs & Ef & F1 & F2).
  destruct (structure_part_ok nl vf _ st poly sdata Hs (qd_pos _ th Hx Ht)) as (S & Es & S0).
  exists S, fp, fs. repeat split; try assumption.
  unfold cplx_dcs. rewrite Ef. cbn [bind]. rewrite Es. reflexivity.
Qed.

Lemma scat_medium_c I n : surroundings_c I n -> s_radius I <> [] -> Forall (fun r => 0 < r) (s_radius I) ->
  n <> RtoC 0 -> 0 < s_wavelen I ->
  exists x_eff, scat_medium I = Ok (n, x_eff)
    /\ Exists (fun a => a <> 0) (match x_eff with Some xe => xe | None => map Cmod (scat_x I n) end).
Proof.
  intros Hs H1 H2 Hn Hw. unfold surroundings_c in Hs. unfold scat_medium.
  destruct (s_radius I) as [|r rs] eqn:Er; [congruence|]. inversion H2; subst.
  assert (X : forall z, z <> RtoC 0 -> Cmod (Cmult z (RtoC (size_parameter (s_wavelen I) 1 r))) <> 0).
  { intros z Hz. apply Rgt_not_eq. apply Cmod_gt_0. apply Cmult_neq_0; [exact Hz|].
    apply RtoC_neq. apply Rgt_not_eq. apply size_parameter_pos; lra. }
  unfold scat_x. rewrite Er.
  destruct (s_emform I).
  - exists None. rewrite Hs. split; [reflexivity|]. left. now apply X.
  - destruct Hs as [-> Hs]. destruct (s_emstruct I).
    + eexists. split; [reflexivity|]. cbn. left. apply X. now apply Hs.
    + exists None. split; [reflexivity|]. left. now apply X.
Qed.

Lemma max_is_largest l : l <> [] -> Forall (fun r => 0 < r) l -> is_largest (Rmax_list l) l.
Proof.
  intros Hn Hp. induction l as [|a l IH]; [congruence|]. inversion Hp; subst. cbn [Rmax_list fold_right].
  fold (Rmax_list l). destruct l as [|b l].
  - cbn. rewrite Rmax_left by lra. split; [now left|]. intros c [<-|[]]. lra.
  - destruct IH as [I1 I2]; [discriminate|assumption|]. split.
    + destruct (Rle_dec a (Rmax_list (b :: l))) as [L|L].
      * rewrite Rmax_right by exact L. now right.
      * rewrite Rmax_left by lra. now left.
    + intros c [<-|Hc]; [apply Rmax_l|]. eapply Rle_trans; [now apply I2|apply Rmax_r].
Qed.
Lemma max_abs_largest l : l <> [] -> (forall a, In a l -> 0 <= a) -> is_largest (Rmax_list (map Rabs l)) l.
Proof.
  intros Hne Hp.
  assert (El : map Rabs l = l).
  { rewrite <- (map_id l) at 2. apply map_ext_in. intros a Hin. apply Rabs_pos_eq. now apply Hp. }
  rewrite El. clear El.
  assert (Hl : l = [] \/ is_largest (Rmax_list l) l).
  { clear Hne. induction l as [|a l IH]; [now left|]. right. cbn [Rmax_list fold_right]. fold (Rmax_list l).
    destruct IH as [->|[I1 I2]]; [intros; apply Hp; now right| |].
    - cbn. rewrite Rmax_left by (apply Hp; now left). split; [now left|]. intros c [<-|[]]. lra.
    - split.
      + destruct (Rle_dec a (Rmax_list l)) as [L|L]; [rewrite Rmax_right by exact L; now right|rewrite Rmax_left by lra; now left].
      + intros c [<-|Hc]; [apply Rmax_l|]. eapply Rle_trans; [now apply I2|apply Rmax_r]. }
  destruct Hl; [congruence|assumption].
Qed.
Lemma max_double l : Rmax_list (map (fun r => 2 * r) l) = 2 * Rmax_list l.
Proof.
  induction l as [|a l IH]; cbn; [lra|]. fold (Rmax_list l). fold (Rmax_list (map (fun r => 2 * r) l)). rewrite IH.
  rewrite RmaxRmult by lra. reflexivity.
Qed.
Lemma distance_largest I : s_radius I <> [] -> Forall (fun r => 0 < r) (s_radius I) ->
  (forall r2, s_radius2 I = Some r2 -> r2 <> [] /\ Forall (fun r => 0 < r) r2) ->
  is_largest (scat_distance I) (s_radius I ++ second_radius I).
Proof.
  intros H1 H2 H3. unfold scat_distance. rewrite max_double.
  replace (2 * Rmax_list (s_radius I ++ other_radius I) / 2) with (Rmax_list (s_radius I ++ other_radius I)) by field.
  apply max_is_largest.
  - destruct (s_radius I); [congruence|discriminate].
  - apply Forall_app. split; [exact H2|]. unfold second_radius. destruct (s_radius2 I) as [r2|]; [apply (H3 r2 eq_refl)|exact H2].
Qed.

Lemma surfaces_average I f : s_radius I <> [] -> Forall (fun r => 0 < r) (s_radius I) ->
  (forall r2, s_radius2 I = Some r2 -> r2 <> [] /\ Forall (fun r => 0 < r) r2) ->
  surface_average I f (weighted (scat_surfaces I (form_used I)) f).
Proof.
  intros H1 H2 H3. unfold surface_average, weighted, scat_surfaces, default_conc.
  pose proof (distance_largest I H1 H2 H3) as HL.
  destruct (match s_conc I with Some c => c | None => (1, 0) end) as [c0 c1].
  destruct (form_used I) as [ft|].
  - destruct (String.eqb ft "polydisperse").
    + cbn [map fst snd Rsum fold_right]. unfold second_radius. fold (other_radius I). unfold Rsum. cbn [fold_right].
      replace (2 * nth 0 (s_radius I) 0 / 2) with (nth 0 (s_radius I) 0) by field.
      replace (2 * nth 0 (other_radius I) 0 / 2) with (nth 0 (other_radius I) 0) by field. ring.
    + exists (scat_distance I). split; [exact HL|]. cbn [map fst snd]. unfold Rsum. cbn [fold_right]. ring.
  - exists (scat_distance I). split; [exact HL|]. cbn [map fst snd]. unfold Rsum. cbn [fold_right]. ring.
Qed.

Lemma phase_absorbing_value integ parts dcs (P S : R -> R) g :
  (forall t, In t g -> dcs t = Ok (Some (P t), Some (S t))) ->
  phase_absorbing integ parts dcs g
  = Ok (phase_function_p (map P g) (map S g),
        Some (weighted parts (fun d => fst (fst (integ (map P g) (map S g) d g 0 (2 * PI)))))).
Proof.
  intros H. unfold phase_absorbing.
  rewrite (all_angles_ext dcs (fun t => Ok (Some (P t), Some (S t)))) by exact H.
  rewrite all_angles_ok. cbn [bind]. rewrite !map_map. cbn [fst snd]. rewrite !get_all_somes.
  now rewrite (proj1 (sums_weighted _ _ _ _ _ _ _)).
Qed.

Lemma surfaces_nonneg I form : (forall c0 c1, s_conc I = Some (c0, c1) -> 0 <= c0 /\ 0 <= c1 /\ c0 + c1 = 1) ->
  forall p, In p (scat_surfaces I form) -> 0 <= fst p.
Proof.
  intros H p Hp. unfold scat_surfaces, default_conc in Hp.
  assert (X : let '(c0, c1) := match s_conc I with Some c => c | None => (1, 0) end in 0 <= c0 /\ 0 <= c1).
  { destruct (s_conc I) as [[c0 c1]|]; [destruct (H c0 c1 eq_refl) as (A & B & _); auto|lra]. }
  destruct (match s_conc I with Some c => c | None => (1, 0) end) as [c0 c1].
  destruct form as [ft|]; [destruct (String.eqb ft "polydisperse")|]; cbn in Hp; intuition subst; cbn; lra.
Qed.

Lemma calc_scat_any_ok factorial ang mie integ I n :
  scat_ok_c factorial I n -> surroundings_c I n -> snd n <> 0 -> s_fine I <= 0 ->
  (forall m y t a, 0 <= fst (mie m y t a) /\ 0 <= snd (mie m y t a)) ->
  exists o (P S : R -> R) x_eff rho, calc_scat_any factorial ang mie integ I = Ok o
    /\ scat_medium I = Ok (n, x_eff)
    /\ scat_rho (s_vf I) (s_radius I) (other_radius I) (s_conc I) = Some rho
    /\ rho * mean_volume I = s_vf I /\ 0 < rho
    /\ (forall t, In t (scat_grid I) ->
        scat_cdcs factorial mie I (form_used I) (structure_used I) n x_eff t = Ok (Some (P t), Some (S t)) /\ 0 <= P t /\ 0 <= S t)
    /\ o_p o = phase_function_p (map P (scat_grid I)) (map S (scat_grid I))
    /\ o_mu o = Some (rho * weighted (scat_surfaces I (form_used I))
         (fun d => fst (fst (integ (scat_k I n) (map P (scat_grid I)) (map S (scat_grid I)) d (scat_grid I) 0 (2 * PI)))))
    /\ o_mie o = None /\ o_muabs o = 4 * PI * snd n / s_wavelen I.
Proof.
  intros (H1 & H2 & H3 & H4 & H5 & H6 & H7 & H8 & H9 & H10 & H11) Hs Hi Hf Ha.
  destruct (scat_medium_c I n Hs H1 H2 H5 H6) as (x_eff & Em & Hx).
  destruct (rho_of_input I H1 H2 H3 H4) as (rho & Er & Ev & Hr).
  set (dcs := scat_cdcs factorial mie I (form_used I) (structure_used I) n x_eff).
  assert (Ok1 : forall t, 0 < t <= PI -> exists p s, dcs t = Ok (Some p, Some s) /\ 0 <= p /\ 0 <= s).
  { intros t Ht. unfold dcs, scat_cdcs.
    destruct (cplx_dcs_ok factorial (fun x kd => mie (scat_m I n) x t kd) (length (s_np I)) n (scat_k I n)
      (scat_distance I) (scat_x I n) x_eff (s_vf I) (structure_used I) (form_used I) (scat_poly I (fst n)) (s_sdata I) t)
      as (S & fp & fs & S0 & P0 & Q0 & _ & _ & E); try assumption.
    - intros. apply Ha.
    - exists (S * fp), (S * fs). split; [exact E|]. split; now apply Rmult_le_pos. }
  set (P := fun t => match dcs t with Ok (Some p, _) => p | _ => 0 end).
  set (S := fun t => match dcs t with Ok (_, Some s) => s | _ => 0 end).
  assert (Hg : forall t, In t (scat_grid I) -> dcs t = Ok (Some (P t), Some (S t)) /\ 0 <= P t /\ 0 <= S t).
  { intros t Ht. apply linspace_in in Ht; [|lra]. destruct (Ok1 t ltac:(lra)) as (p & s & E & P0 & S0). unfold P, S. rewrite E. auto. }
  unfold calc_scat_any, calc_scat. rewrite Em, (scat_types_ok I H9). cbn [bind]. unfold scat_phase.
  rewrite (proj2 (Reqb_false _ _)) by exact Hi. cbn [negb]. fold (scat_grid I). fold dcs.
  rewrite (phase_absorbing_value _ _ dcs P S) by (intros t Ht; now apply Hg).
  rewrite Er. cbn [bind fst snd nmap2]. rewrite (proj2 (Rltb_false _ _)) by lra.
  eexists _, P, S, x_eff, rho. split; [reflexivity|]. cbn [o_p o_mu o_mie o_muabs].
  repeat (split; [solve [reflexivity|assumption|auto]|]). reflexivity.
Qed.

(** * Agreement with the single-scattering model *)
Lemma same_ok_c fsolve factorial I J n ne : inputs_ok factorial I (fst n) ne ->
  choose_sample (n_eff fsolve (i_mg I) (i_nparticle I) [i_nmatrix I] (vf_array (i_vf I) (i_radius I)))
    (i_nmatrix I) (i_emstruct I) (i_emform I) = Ok (n, ne) ->
  same_sample fsolve I J -> scat_ok_c factorial J n /\ surroundings_c J n.
Proof.
  intros (H1 & H2 & H3 & H4 & H5 & H6 & H7 & H8 & H9 & H10 & H11 & H12 & H13 & H14 & H15 & H16 & H17 & H18 & H19)
    Hs Hss. pose proof Hss as (E1 & E2 & E3 & E4 & E5 & E6 & E7 & E8 & E9 & E10 & E11 & E12 & E13 & E14 & E15 & E16 & E17 & E18 & E19).
  assert (Ep : refl_poly I (fst n) = scat_poly J (fst n)).
  { eapply same_poly; [eassumption|congruence|]. intros r2 Hr2. rewrite <- E5 in Hr2. now apply H4. }
  split.
  - unfold scat_ok_c. split; [congruence|]. split; [congruence|].
    split; [intros r2 Hr2; rewrite <- E5 in Hr2; now apply H4|].
    split; [intros c0 c1 Hc; destruct (E18 c0 c1 Hc) as (? & ? & ?); lra|].
    split; [intros ->; cbn in H6; lra|]. split; [lra|]. split; [lra|]. split; [lra|].
    split; [|split].
    + intros Hp. rewrite E10, E2, Ep in H18. unfold form_used in H18. rewrite Hp in H18.
      destruct H18 as [X|[X|(_ & Y & l & w & nm & X & _)]]; try discriminate. split; [|exact Y].
      unfold scat_poly in X. intros Z. rewrite Z in X. destruct (default_conc (s_conc J)); discriminate.
    + rewrite <- E10, <- E2, <- Ep. exact H18.
    + rewrite <- E11, <- E2, <- E3, <- Ep, <- E12. exact H19.
  - unfold surroundings_c, choose_sample in *. rewrite E16, <- E14, <- E15, E13 in *.
    destruct (i_emform I), (i_emstruct I); cbn in Hs; try discriminate.
    + injection Hs as <- <-. reflexivity.
    + injection Hs as <- <-. split; [reflexivity|]. intros _. now apply H7.
    + injection Hs as <- <-. split; [reflexivity|discriminate].
Qed.

Lemma same_surfaces fsolve factorial I J n ne : inputs_ok factorial I n ne -> same_sample fsolve I J ->
  surfaces I = scat_surfaces J (form_used J).
Proof.
  intros (H1 & H2 & H3 & H4 & H5 & H6 & H7 & H8 & H9 & H10 & H11 & H12 & H13 & H14 & H15 & H16 & H17 & H18 & H19) Hss.
  pose proof Hss as (E1 & E2 & E3 & E4 & E5 & E6 & E7 & E8 & E9 & E10 & E11 & E12 & E13 & E14 & E15 & E16 & E17 & E18 & E19).
  assert (Ep : refl_poly I n = scat_poly J n).
  { eapply same_poly; [eassumption|congruence|]. intros r2 Hr2. rewrite <- E5 in Hr2. now apply H4. }
  unfold surfaces, scat_surfaces, scat_distance, other_radius. rewrite E1, E5, E6, E10.
  destruct (form_used J) as [ft|] eqn:Ef.
  - destruct (String.eqb ft "polydisperse") eqn:Eft.
    + rewrite E10 in H18. apply String.eqb_eq in Eft. subst ft.
      destruct H18 as [X|[X|(_ & _ & l & w & nm & X & _)]]; try discriminate.
      unfold refl_poly in X. rewrite E6, E7 in X.
      destruct (s_conc J) as [[c0 c1]|]; [|discriminate]. destruct (s_pdi J) as [[p0 p1]|]; [|discriminate].
      cbn [default_conc]. destruct E19 as [Y|[_ Hl]]; [discriminate|].
      destruct (s_radius J) as [|r [|r' rs]]; cbn in Hl; try lia. cbn [app map nth].
      destruct (s_radius2 J) as [[|q qs]|] eqn:Eq; cbn [map nth]; try reflexivity.
      exfalso. destruct (H4 []) as [X1 _]; [congruence|congruence].
    + destruct (s_conc J) as [[c0 c1]|]; reflexivity.
  - destruct (s_conc J) as [[c0 c1]|]; reflexivity.
Qed.

Lemma same_dcs fsolve factorial mie I J n ne x_eff t : inputs_ok factorial I (fst n) ne ->
  choose_sample (n_eff fsolve (i_mg I) (i_nparticle I) [i_nmatrix I] (vf_array (i_vf I) (i_radius I)))
    (i_nmatrix I) (i_emstruct I) (i_emform I) = Ok (n, ne) ->
  same_sample fsolve I J -> scat_medium J = Ok (n, x_eff) ->
  refl_cdcs fsolve factorial mie I n t = scat_cdcs factorial mie J (form_used J) (structure_used J) n x_eff t.
Proof.
  intros (H1 & H2 & H3 & H4 & _) Hs Hss Em.
  pose proof Hss as (E1 & E2 & E3 & E4 & E5 & E6 & E7 & E8 & E9 & E10 & E11 & E12 & E13 & E14 & E15 & E16 & E17 & E18 & E19).
  assert (Ep : refl_poly I (fst n) = scat_poly J (fst n)).
  { eapply same_poly; [eassumption|congruence|]. intros r2 Hr2. rewrite <- E5 in Hr2. now apply H4. }
  unfold refl_cdcs. rewrite Hs.
  assert (Ex : (match ne with Some z => Some (map (fun r => Cmod (csize_parameter (i_wavelen I) z r)) (i_radius I)) | None => None end) = x_eff).
  { clear - Hs Em E1 E4 E13 E14 E15 E16. unfold choose_sample in Hs. rewrite E16 in Hs.
    unfold scat_medium in Em. rewrite E13, <- E14, <- E15 in Em. rewrite E1, E4.
    destruct (i_emform I), (i_emstruct I); cbn [bind] in Hs; try discriminate;
      injection Hs as Hn Hne; injection Em as Hm Hx; subst; reflexivity. }
  replace (match ne with Some _ => _ | None => None end) with x_eff
    by (rewrite <- Ex; destruct ne; reflexivity).
  unfold scat_cdcs, scat_m, scat_k, scat_x, scat_distance, refl_distance, other_radius.
  rewrite map_length, Ep, E1, E2, E3, E4, E5, E10, E11, E12. reflexivity.
Qed.

Lemma agreement_c fsolve factorial ang mie integ I J n ne :
  inputs_ok factorial I (fst n) ne ->
  choose_sample (n_eff fsolve (i_mg I) (i_nparticle I) [i_nmatrix I] (vf_array (i_vf I) (i_radius I)))
    (i_nmatrix I) (i_emstruct I) (i_emform I) = Ok (n, ne) -> 0 < snd n ->
  same_sample fsolve I J ->
  (forall m y t a, 0 <= fst (mie m y t a) /\ 0 <= snd (mie m y t a)) ->
  exists o (P S : R -> R), calc_scat_any factorial ang mie integ J = Ok o
    /\ absorbing_sample fsolve I n /\ geometry_ok (absorbing_args I n)
    /\ gives (absorbing_args I n) (refl_cdcs fsolve factorial mie I n) P S
    /\ (forall p, In p (surfaces I) -> 0 <= fst p)
    /\ o_mu o = Some (a_rho (absorbing_args I n)
                      * total_abs (integ (Cmult (RtoC (2 * PI / i_wavelen I)) n)) (surfaces I) (absorbing_args I n) P S)
    /\ o_muabs o = 4 * PI * snd n / i_wavelen I.
Proof.
  intros HI Hs Hn Hss Ha. destruct (same_ok_c fsolve factorial I J n ne HI Hs Hss) as [SO SU].
  pose proof HI as (H1 & H2 & H3 & H4 & H5 & H6 & H7 & H8 & H9 & H10 & H11 & H12 & H13 & H14 & H15 & H16 & H17 & H18 & H19).
  pose proof Hss as (E1 & E2 & E3 & E4 & E5 & E6 & E7 & E8 & E9 & E10 & E11 & E12 & E13 & E14 & E15 & E16 & E17 & E18 & E19).
  pose proof PI_RGT_0 as HPI.
  destruct (calc_scat_any_ok factorial ang mie integ J n SO SU) as (o & P & S & x_eff & rho & Eo & Em & Er & Ev & Hr & HPS & Ep & Emu & Emie & Eabs);
    try assumption; try lra.
  destruct SO as (S1 & S2 & S3 & S4 & S5 & S6 & S7 & S8 & S9 & S10 & S11).
  destruct (scat_medium_c J n SU S1 S2 S5 S6) as (x_eff' & Em' & Hx). rewrite Em in Em'. injection Em' as <-.
  assert (Erho : a_rho (absorbing_args I n) = rho).
  { cbn. rewrite E1, E3, E5, E6. destruct (max_other J S1 S2 S3) as [M1 M2]. fold (other_radius J). now apply rho_agree. }
  assert (AS : absorbing_sample fsolve I n) by (split; [exact H1|split; [eauto|lra]]).
  assert (G : geometry_ok (absorbing_args I n)).
  { unfold geometry_ok. rewrite Erho. cbn. change (4 * PI * snd n / i_wavelen I / _) with (a_cabs (absorbing_args I n)).
    assert (0 <= a_cabs (absorbing_args I n)).
    { replace (a_cabs (absorbing_args I n)) with (4 * PI * snd n / i_wavelen I / a_rho (absorbing_args I n)) by reflexivity.
      rewrite Erho. left. apply Rdiv_lt_0_compat; [|exact Hr]. apply Rdiv_lt_0_compat; [|lra]. nra. }
    assert (0 < Cmod n) by (apply Cmod_gt_0; exact S5).
    repeat split; try lra. }
  set (dcs := refl_cdcs fsolve factorial mie I n).
  assert (Ok1 : forall t, 0 < t <= PI -> exists p s, dcs t = Ok (Some p, Some s) /\ 0 <= p /\ 0 <= s).
  { intros t Ht. unfold dcs. rewrite (same_dcs fsolve factorial mie I J n ne x_eff t HI Hs Hss Em). unfold scat_cdcs.
    destruct (cplx_dcs_ok factorial (fun x kd => mie (scat_m J n) x t kd) (length (s_np J)) n (scat_k J n)
      (scat_distance J) (scat_x J n) x_eff (s_vf J) (structure_used J) (form_used J) (scat_poly J (fst n)) (s_sdata J) t)
      as (SS & fp & fs & SS0 & P0 & Q0 & _ & _ & E); try assumption.
    - intros. apply Ha.
    - exists (SS * fp), (SS * fs). split; [exact E|]. split; now apply Rmult_le_pos. }
  set (P1 := fun t => match dcs t with Ok (Some p, _) => p | _ => 0 end).
  set (Q1 := fun t => match dcs t with Ok (_, Some s) => s | _ => 0 end).
  exists o, P1, Q1. split; [exact Eo|]. split; [exact AS|]. split; [exact G|]. split.
  { intros t Ht. assert (Hr1 : 0 < t <= PI).
    { destruct Ht as [Ht|Ht]; [pose proof (detected_in _ t G Ht); lra|].
      unfold total_angles in Ht. rewrite Rplus_0_l in Ht. cbn [a_small absorbing_args] in Ht. apply linspace_in in Ht; lra. }
    destruct (Ok1 t Hr1) as (p & s & E & P0 & S0). unfold P1, Q1. rewrite E. auto. }
  rewrite (same_surfaces fsolve factorial I J (fst n) ne HI Hss).
  split; [apply surfaces_nonneg, S4|]. split; [|rewrite Eabs, E4; reflexivity].
  rewrite Emu, Erho. f_equal. f_equal. unfold total_abs.
  assert (EG : total_angles (absorbing_args I n) = scat_grid J).
  { unfold total_angles, scat_grid. cbn [a_small a_num absorbing_args]. rewrite E8, E9, Rplus_0_l. reflexivity. }
  rewrite EG.
  assert (EP : map P1 (scat_grid J) = map P (scat_grid J)).
  { apply map_ext_in. intros t Ht. destruct (HPS t Ht) as [X _]. unfold P1, dcs.
    rewrite (same_dcs fsolve factorial mie I J n ne x_eff t HI Hs Hss Em), X. reflexivity. }
  assert (ES : map Q1 (scat_grid J) = map S (scat_grid J)).
  { apply map_ext_in. intros t Ht. destruct (HPS t Ht) as [X _]. unfold Q1, dcs.
    rewrite (same_dcs fsolve factorial mie I J n ne x_eff t HI Hs Hss Em), X. reflexivity. }
  rewrite EP, ES, E4. reflexivity.
Qed.

(** * fields=True *)
Lemma all_rows_ok {A} (f : R -> R -> result A) (P : R -> R -> A) thetas phis :
  (forall t p, In t thetas -> In p phis -> f t p = Ok (P t p)) ->
  all_rows f thetas phis = Ok (map (fun t => map (P t) phis) thetas).
Proof.
  induction thetas as [|t ts IH]; intros H; [reflexivity|]. cbn [all_rows map].
  rewrite (all_angles_ext (f t) (fun p => Ok (P t p))) by (intros p Hp; apply H; [now left|exact Hp]).
  rewrite all_angles_ok. cbn [bind]. rewrite IH by (intros; apply H; [now right|assumption]). reflexivity.
Qed.
Lemma get_rows_somes (P : R -> R -> R) thetas phis :
  get_rows (map (fun t => map (fun p => Some (P t p)) phis) thetas) = Some (tabulate P thetas phis).
Proof.
  induction thetas as [|t ts IH]; [reflexivity|]. cbn [map get_rows tabulate]. rewrite get_all_somes, IH. reflexivity.
Qed.
Lemma map2_rows (P S : R -> R -> R) thetas phis :
  map2 (map2 Rplus) (tabulate P thetas phis) (tabulate S thetas phis) = tabulate (fun t p => P t p + S t p) thetas phis.
Proof.
  unfold tabulate. induction thetas as [|t ts IH]; [reflexivity|]. cbn [map map2]. rewrite IH. f_equal.
  apply map2_map.
Qed.
Lemma phase_table_value (P S : R -> R -> R) thetas phis :
  let s := table_total (fun t p => P t p + S t p) thetas phis in s <> 0 ->
  phase_table (tabulate P thetas phis) (tabulate S thetas phis)
  = map (fun t => map (fun p => Some ((P t p + S t p) / s)) phis) thetas.
Proof.
  intros s Hs. unfold phase_table. rewrite map2_rows.
  assert (E : Rsum (map Rsum (tabulate (fun t p => P t p + S t p) thetas phis)) = s).
  { unfold s, table_total, tabulate. rewrite map_map, (Rsum_total (map _ thetas)). reflexivity. }
  rewrite E. unfold tabulate. rewrite map_map. apply map_ext. intros t. rewrite map_map. apply map_ext. intros p.
  unfold ndiv. now rewrite (proj2 (Reqb_false s 0)).
Qed.

Lemma fields_ok factorial mie integ pc I nphi n :
  scat_ok_c factorial I n -> surroundings_c I n -> s_fine I <= 0 -> form_used I <> Some "polydisperse"%string ->
  (forall m y t p a, 0 <= fst (mie m y t p a) /\ 0 <= snd (mie m y t p a)) ->
  exists o (P S : R -> R -> R) x_eff rho, calc_scat_fields factorial mie integ pc I nphi = Ok o
    /\ scat_medium I = Ok (n, x_eff)
    /\ rho * mean_volume I = s_vf I /\ 0 < rho
    /\ (forall t p, In t (scat_grid I) ->
        scat_cdcs factorial (fun m x th a => mie m x th p a) I (form_used I) (structure_used I) n x_eff t
          = Ok (Some (P t p), Some (S t p)) /\ 0 <= P t p /\ 0 <= S t p)
    /\ f_p o = phase_table (tabulate P (scat_grid I) (phi_grid I nphi)) (tabulate S (scat_grid I) (phi_grid I nphi))
    /\ f_mu o = Some (rho * integ (scat_k I n) (tabulate P (scat_grid I) (phi_grid I nphi))
                       (tabulate S (scat_grid I) (phi_grid I nphi)) (scat_distance I) (scat_grid I) (phi_grid I nphi))
    /\ f_mie o = None /\ f_muabs o = 4 * PI * snd n / s_wavelen I.
Proof.
  intros (H1 & H2 & H3 & H4 & H5 & H6 & H7 & H8 & H9 & H10 & H11) Hs Hf Hnp Ha.
  destruct (scat_medium_c I n Hs H1 H2 H5 H6) as (x_eff & Em & Hx).
  destruct (rho_of_input I H1 H2 H3 H4) as (rho & Er & Ev & Hr).
  set (dcs := fun t p => scat_cdcs factorial (fun m x th a => mie m x th p a) I (form_used I) (structure_used I) n x_eff t).
  assert (Ok1 : forall t ph, 0 < t <= PI -> exists p s, dcs t ph = Ok (Some p, Some s) /\ 0 <= p /\ 0 <= s).
  { intros t ph Ht. unfold dcs, scat_cdcs.
    destruct (cplx_dcs_ok factorial (fun x kd => mie (scat_m I n) x t ph kd) (length (s_np I)) n (scat_k I n)
      (scat_distance I) (scat_x I n) x_eff (s_vf I) (structure_used I) (form_used I) (scat_poly I (fst n)) (s_sdata I) t)
      as (S & fp & fs & S0 & P0 & Q0 & _ & _ & E); try assumption.
    - intros. apply Ha.
    - exists (S * fp), (S * fs). split; [exact E|]. split; now apply Rmult_le_pos. }
  set (P := fun t ph => match dcs t ph with Ok (Some p, _) => p | _ => 0 end).
  set (S := fun t ph => match dcs t ph with Ok (_, Some s) => s | _ => 0 end).
  assert (Hg : forall t ph, In t (scat_grid I) -> dcs t ph = Ok (Some (P t ph), Some (S t ph)) /\ 0 <= P t ph /\ 0 <= S t ph).
  { intros t ph Ht. apply linspace_in in Ht; [|lra]. destruct (Ok1 t ph ltac:(lra)) as (p & s & E & P0 & S0). unfold P, S. rewrite E. auto. }
  unfold calc_scat_fields. rewrite Em. cbn [bind]. rewrite (scat_types_ok I H9). cbn [bind].
  assert (Eph : scat_fields_phase factorial mie integ pc I nphi (form_used I) (structure_used I) n x_eff
    = Ok (phase_table (tabulate P (scat_grid I) (phi_grid I nphi)) (tabulate S (scat_grid I) (phi_grid I nphi)),
          Some (integ (scat_k I n) (tabulate P (scat_grid I) (phi_grid I nphi))
                       (tabulate S (scat_grid I) (phi_grid I nphi)) (scat_distance I) (scat_grid I) (phi_grid I nphi)))).
  { assert (E : scat_fields_phase factorial mie integ pc I nphi (form_used I) (structure_used I) n x_eff
       = phase_cartesian (integ (scat_k I n)) (scat_distance I) dcs (scat_grid I) (phi_grid I nphi)).
    { unfold dcs, scat_cdcs. destruct H10 as [E|[E|(E & _)]]; [rewrite E; reflexivity|rewrite E; reflexivity|congruence]. }
    rewrite E. unfold phase_cartesian.
    rewrite (all_rows_ok dcs (fun t p => (Some (P t p), Some (S t p)))) by (intros t p Ht _; now apply Hg).
    cbn [bind]. rewrite !map_map.
    rewrite (map_ext (fun x => map fst (map (fun p => (Some (P x p), Some (S x p))) (phi_grid I nphi))) (fun t => map (fun p => Some (P t p)) (phi_grid I nphi)))
      by (intros; rewrite map_map; reflexivity).
    rewrite (map_ext (fun x => map snd (map (fun p => (Some (P x p), Some (S x p))) (phi_grid I nphi))) (fun t => map (fun p => Some (S t p)) (phi_grid I nphi)))
      by (intros; rewrite map_map; reflexivity).
    now rewrite !get_rows_somes. }
  rewrite Eph. cbn [bind fst snd]. rewrite Er. cbn [nmap2]. rewrite (proj2 (Rltb_false _ _)) by lra.
  eexists _, P, S, x_eff, rho. split; [reflexivity|]. cbn [f_p f_mu f_mie f_muabs].
  repeat (split; [solve [reflexivity|assumption|auto]|]). reflexivity.
Qed.

(** * The rough surface of an absorbing sample *)
Lemma rough_ok_c factorial ang mie integ I n n' :
  scat_ok_c factorial I n -> surroundings_c I n -> snd n <> 0 -> 0 < s_fine I ->
  s_nmatrix I = Some n' -> n' <> RtoC 0 -> snd n' <> 0 ->
  (forall m y t a, 0 <= fst (mie m y t a) /\ 0 <= snd (mie m y t a)) ->
  exists o (P S : R -> R) rho, calc_scat_any factorial ang mie integ I = Ok o
    /\ rho * mean_volume I = s_vf I /\ 0 < rho
    /\ (forall t, In t (scat_grid I) ->
        scat_cdcs factorial mie I (form_used I) S_none n' None t = Ok (Some (P t), Some (S t)) /\ 0 <= P t /\ 0 <= S t)
    /\ o_mie o = Some (Some (rho * weighted (scat_surfaces I (form_used I))
         (fun d => fst (fst (integ (scat_k I n') (map P (scat_grid I)) (map S (scat_grid I)) d (scat_grid I) 0 (2 * PI)))))).
Proof.
  intros SO Hs Hi Hf Hm Hn' Hi' Ha. pose proof SO as (H1 & H2 & H3 & H4 & H5 & H6 & H7 & H8 & H9 & H10 & H11).
  destruct (scat_medium_c I n Hs H1 H2 H5 H6) as (x_eff & Em & Hx).
  destruct (rho_of_input I H1 H2 H3 H4) as (rho & Er & Ev & Hr).
  assert (H10' : form_ok factorial (length (s_np I)) (form_used I) (scat_poly I (fst n'))).
  { destruct H10 as [E|[E|(E & L & l & w & nm & Ep & Hsp)]]; [now left|right; now left|]. right; right.
    split; [exact E|]. split; [exact L|]. unfold scat_poly in Ep |- *.
    destruct (default_conc (s_conc I)), (s_pdi I) as [[p0 p1]|]; [|discriminate]. injection Ep as <- <- <-. eauto. }
  set (dcs := scat_cdcs factorial mie I (form_used I) (structure_used I) n x_eff).
  set (dcs' := scat_cdcs factorial mie I (form_used I) S_none n' None).
  assert (Ok1 : forall t, 0 < t <= PI -> exists p s, dcs t = Ok (Some p, Some s)).
  { intros t Ht. unfold dcs, scat_cdcs.
    destruct (cplx_dcs_ok factorial (fun x kd => mie (scat_m I n) x t kd) (length (s_np I)) n (scat_k I n)
      (scat_distance I) (scat_x I n) x_eff (s_vf I) (structure_used I) (form_used I) (scat_poly I (fst n)) (s_sdata I) t)
      as (S & fp & fs & S0 & P0 & Q0 & _ & _ & E); try assumption.
    - intros. apply Ha.
    - exists (S * fp), (S * fs). exact E. }
  assert (Hx' : Exists (fun a => a <> 0) (map Cmod (scat_x I n'))).
  { unfold scat_x. destruct (s_radius I) as [|r rs]; [congruence|]. inversion H2; subst. left. apply Rgt_not_eq, Cmod_gt_0.
    apply Cmult_neq_0; [exact Hn'|]. apply RtoC_neq. apply Rgt_not_eq. apply size_parameter_pos; lra. }
  assert (Ok2 : forall t, 0 < t <= PI -> exists p s, dcs' t = Ok (Some p, Some s) /\ 0 <= p /\ 0 <= s).
  { intros t Ht. unfold dcs', scat_cdcs.
    destruct (cplx_dcs_ok factorial (fun x kd => mie (scat_m I n') x t kd) (length (s_np I)) n' (scat_k I n')
      (scat_distance I) (scat_x I n') None (s_vf I) S_none (form_used I) (scat_poly I (fst n')) (s_sdata I) t)
      as (S & fp & fs & S0 & P0 & Q0 & _ & _ & E); try assumption; try exact Logic.I.
    - intros. apply Ha.
    - exists (S * fp), (S * fs). split; [exact E|]. split; now apply Rmult_le_pos. }
  set (P0 := fun t => match dcs t with Ok (Some p, _) => p | _ => 0 end).
  set (S0 := fun t => match dcs t with Ok (_, Some s) => s | _ => 0 end).
  set (P := fun t => match dcs' t with Ok (Some p, _) => p | _ => 0 end).
  set (S := fun t => match dcs' t with Ok (_, Some s) => s | _ => 0 end).
  assert (Hg0 : forall t, In t (scat_grid I) -> dcs t = Ok (Some (P0 t), Some (S0 t))).
  { intros t Ht. apply linspace_in in Ht; [|lra]. destruct (Ok1 t ltac:(lra)) as (p & s & E). unfold P0, S0. now rewrite E. }
  assert (Hg : forall t, In t (scat_grid I) -> dcs' t = Ok (Some (P t), Some (S t)) /\ 0 <= P t /\ 0 <= S t).
  { intros t Ht. apply linspace_in in Ht; [|lra]. destruct (Ok2 t ltac:(lra)) as (p & s & E & X & Y). unfold P, S. rewrite E. auto. }
  unfold calc_scat_any, calc_scat. rewrite Em, (scat_types_ok I H9). cbn [bind]. unfold scat_phase.
  rewrite !(proj2 (Reqb_false _ _)) by assumption. cbn [negb]. fold (scat_grid I). fold dcs.
  rewrite (phase_absorbing_value _ _ dcs P0 S0) by exact Hg0.
  rewrite Er. cbn [bind fst snd nmap2]. rewrite (proj2 (Rltb_true _ _)) by lra. rewrite Hm.
  rewrite (proj2 (Reqb_false _ _)) by assumption. cbn [negb].
  assert (Hg' : forall t, In t (scat_grid I) -> scat_cdcs factorial mie I (form_used I) S_none n' x_eff t = Ok (Some (P t), Some (S t))).
  { intros t Ht. destruct (Hg t Ht) as [<- _]. reflexivity. }
  rewrite (phase_absorbing_value _ _ _ P S) by exact Hg'. cbn [bind fst snd nmap2].
  eexists _, P, S, rho. split; [reflexivity|]. cbn [o_mie].
  split; [exact Ev|]. split; [now apply Hr|]. split; [exact Hg|]. reflexivity.
Qed.
