(** Changing the unit of length in calc_scat (C148). *)
From Coq Require Import Lra Lia Psatz FunctionalExtensionality.
From Verif Require Import Num Spec Spec_scatter Spec_optics Spec_reflection Spec_absorbing Spec_scat Spec_scat_cplx Spec_meta
  Spec_detector Spec_events Spec_unitrun
  L_num L_trapezoid L_montecarlo2 L_reflection L_dcs L_poly L_units L_scat L_scat_cplx
  M_init M_montecarlo M_detector M_structure M_refractive_index M_reflection M_absorbing M_scat M_scat_cplx.
From Coquelicot Require Import Complex.
Open Scope R_scope.

Definition area_in (l : R) (r : result (list num * num)) : result (list num * num) :=
  match r with Ok (p, s) => Ok (p, nmap (fun a => l ^ 2 * a) s) | Err e => Err e end.
Definition poly_in (l : R) (p : poly_args) : poly_args :=
  match p with Some (sp, w, n) => Some (map (scale_sp l) sp, l * w, n) | None => None end.

Lemma max_scale l v : 0 <= l -> Rmax_list (map (fun r => l * r) v) = l * Rmax_list v.
Proof.
  intros Hl. induction v as [|a v IH]; cbn; [lra|]. fold (Rmax_list v). fold (Rmax_list (map (fun r => l * r) v)). rewrite IH.
  rewrite RmaxRmult by lra. reflexivity.
Qed.
Lemma nth_scale l v i : nth i (map (fun r => l * r) v) 0 = l * nth i v 0.
Proof. rewrite <- (map_nth (fun r => l * r)). now rewrite Rmult_0_r. Qed.
Lemma integrate_factor k c cs a azi : forall (g : list R),
  integrate_cross_section cs (map (fun _ => k * c) g) a azi = k * integrate_cross_section cs (map (fun _ => c) g) a azi.
Proof.
  intros g. unfold integrate_cross_section.
  replace (map3 (fun c0 f t => c0 * f * sin t) cs (map (fun _ : R => k * c) g) a)
    with (map (Rmult k) (map3 (fun c0 f t => c0 * f * sin t) cs (map (fun _ : R => c) g) a)).
  - rewrite trapezoid_scale. ring.
  - revert g a. induction cs as [|x cs IH]; intros [|y g] [|z a]; cbn [map map3]; try reflexivity. rewrite IH. f_equal. ring.
Qed.

Section Units.
Context (l : R) (Hl : 0 < l) (I : scat_in) (Hw : 0 < s_wavelen I).
Local Notation J := (in_unit l I).

Lemma other_in : other_radius J = map (fun r => l * r) (other_radius I).
Proof. unfold other_radius. cbn [in_unit s_radius2 s_radius]. destruct (s_radius2 I); reflexivity. Qed.
Lemma size_in n r : size_parameter (l * s_wavelen I) n (l * r) = size_parameter (s_wavelen I) n r.
Proof. unfold size_parameter. field. lra. Qed.
Lemma csize_in n r : csize_parameter (l * s_wavelen I) n (l * r) = csize_parameter (s_wavelen I) n r.
Proof. unfold csize_parameter. now rewrite size_in. Qed.
Lemma x_in n : scat_x J n = scat_x I n.
Proof. unfold scat_x. cbn [in_unit s_radius s_wavelen]. rewrite map_map. apply map_ext. intros r. apply csize_in. Qed.
Lemma xr_in n : map (size_parameter (s_wavelen J) n) (s_radius J) = map (size_parameter (s_wavelen I) n) (s_radius I).
Proof. cbn [in_unit s_radius s_wavelen]. rewrite map_map. apply map_ext. intros r. apply size_in. Qed.
Lemma medium_in : scat_medium J = scat_medium I.
Proof.
  unfold scat_medium. cbn [in_unit s_emform s_emstruct s_nmatrix s_nsample s_wavelen s_radius]. rewrite map_map.
  replace (map (fun x => Cmod (Cmult (s_nsample I) (RtoC (size_parameter (l * s_wavelen I) 1 (l * x))))) (s_radius I))
    with (map (fun x => Cmod (Cmult (s_nsample I) (RtoC (size_parameter (s_wavelen I) 1 x)))) (s_radius I)).
  - reflexivity.
  - apply map_ext. intros r. now rewrite size_in.
Qed.
Lemma types_in : scat_types J = scat_types I. Proof. reflexivity. Qed.
Lemma poly_in_eq n : scat_poly J n = poly_in l (scat_poly I n).
Proof.
  unfold scat_poly. cbn [in_unit s_conc s_pdi s_radius s_wavelen]. rewrite other_in.
  destruct (default_conc (s_conc I)) as [c0 c1]. destruct (s_pdi I) as [[p0 p1]|]; [|reflexivity].
  cbn [poly_in map]. unfold scale_sp. cbn [sp_c sp_d sp_pdi]. rewrite !nth_scale.
  replace (2 * (l * nth 0 (s_radius I) 0)) with (l * (2 * nth 0 (s_radius I) 0)) by ring.
  replace (2 * (l * nth 0 (other_radius I) 0)) with (l * (2 * nth 0 (other_radius I) 0)) by ring. reflexivity.
Qed.
Lemma k_in n : scat_k J n = Cmult (RtoC (/ l)) (scat_k I n).
Proof.
  unfold scat_k. cbn [in_unit s_wavelen]. rewrite Cmult_assoc, <- RtoC_mult. do 2 f_equal. field. lra.
Qed.
Lemma distance_in : scat_distance J = l * scat_distance I.
Proof.
  unfold scat_distance. rewrite other_in. cbn [in_unit s_radius]. rewrite <- map_app, map_map.
  rewrite (map_ext _ (fun r => l * (2 * r))) by (intros; ring).
  rewrite <- (map_map (fun r => 2 * r) (fun r => l * r)), max_scale by lra. unfold Rdiv. ring.
Qed.
Lemma surfaces_in form : scat_surfaces J form = map (fun p => (fst p, l * snd p)) (scat_surfaces I form).
Proof.
  unfold scat_surfaces. cbn [in_unit s_conc s_radius]. rewrite other_in, distance_in, !nth_scale.
  destruct (default_conc (s_conc I)) as [c0 c1]. destruct form as [ft|]; [destruct (String.eqb ft "polydisperse")|];
    cbn [map fst snd]; repeat (f_equal; try (unfold Rdiv; ring)).
Qed.
Lemma kd_in n d : Cmult (scat_k J n) (RtoC (l * d)) = Cmult (scat_k I n) (RtoC d).
Proof.
  rewrite k_in, RtoC_mult. rewrite <- Cmult_assoc, (Cmult_comm (scat_k I n)), Cmult_assoc, Cmult_assoc, <- RtoC_mult.
  replace (/ l * l) with 1 by (field; lra). rewrite Cmult_1_l. apply Cmult_comm.
Qed.

Context (Hne : s_radius I <> []) (Hr : Forall (fun r => 0 < r) (s_radius I))
  (Hr2 : forall r2, s_radius2 I = Some r2 -> r2 <> [] /\ Forall (fun r => 0 < r) r2)
  (Hc : forall c0 c1, s_conc I = Some (c0, c1) -> 0 <= c0 /\ 0 <= c1 /\ c0 + c1 = 1)
  (Hvf : 0 < s_vf I) (Hmin : 0 < s_min I <= PI) (Hnarrow : narrow_sizes I).

Lemma rho_in : scat_rho (s_vf J) (s_radius J) (other_radius J) (s_conc J)
  = nmap (fun r => r / l ^ 3) (scat_rho (s_vf I) (s_radius I) (other_radius I) (s_conc I)).
Proof.
  rewrite other_in. unfold scat_rho. cbn [in_unit s_radius s_vf s_conc]. rewrite !max_scale by lra.
  destruct (max_other I Hne Hr Hr2) as [M1 M2].
  set (r := Rmax_list (s_radius I)) in *. set (r2 := Rmax_list (other_radius I)) in *.
  assert (D : let '(c0, c1) := default_conc (s_conc I) in 0 <= c0 /\ 0 <= c1 /\ c0 + c1 = 1).
  { unfold default_conc. destruct (s_conc I) as [[c0 c1]|]; [now apply Hc|lra]. }
  destruct (default_conc (s_conc I)) as [c0 c1]. destruct D as (C0 & C1 & C2).
  assert (T : forall a b c c', 0 < a -> 0 < b -> 0 <= c -> 0 <= c' -> c + c' = 1 ->
    density_term (l * a) (l * b) c c' = nmap (fun t => t / l ^ 3) (density_term a b c c')).
  { intros a b c c' Ha Hb Hcc Hc' Hs. unfold density_term.
    assert (L3 : 0 < l ^ 3) by (apply pow_lt; exact Hl). assert (A3 : 0 < a ^ 3) by now apply pow_lt.
    assert (B3 : 0 < b ^ 3) by now apply pow_lt.
    destruct (Reqb c 0) eqn:E.
    - apply Reqb_true in E.
      rewrite (proj2 (Reqb_false ((l * b) ^ 3 * c') 0)) by (rewrite Rpow_mult_distr; nra).
      rewrite (proj2 (Reqb_false (b ^ 3 * c') 0)) by nra. cbn [nmap option_map]. f_equal. field. lra.
    - apply Reqb_false in E. unfold ndiv. cbv zeta.
      assert (S0 : 0 <= b ^ 3 * c' / c) by (apply Rmult_le_pos; [nra|left; apply Rinv_0_lt_compat; lra]).
      assert (Q : (l * a) ^ 3 + (l * b) ^ 3 * c' / c = l ^ 3 * (a ^ 3 + b ^ 3 * c' / c)) by (rewrite !Rpow_mult_distr; field; exact E).
      rewrite Q. rewrite (proj2 (Reqb_false (l ^ 3 * _) 0)) by nra.
      rewrite (proj2 (Reqb_false (a ^ 3 + _) 0)) by lra. cbn [nmap option_map]. f_equal. unfold Rdiv. rewrite Rinv_mult. ring. }
  rewrite (T r r2 c0 c1), (T r2 r c1 c0) by (try assumption; lra).
  destruct (density_term r r2 c0 c1), (density_term r2 r c1 c0); cbn [nmap nmap2 option_map]; try reflexivity.
  f_equal. unfold Rdiv. ring.
Qed.

(** ** Form and structure factors. *)
Lemma species_of_poly n sp w n' : scat_poly I n = Some (sp, w, n') ->
  Forall good_sp sp /\ length sp = 2%nat /\ w = s_wavelen I /\ (forall s, In s sp -> width (sp_pdi s) <= 1 / 3) /\ s_vf I < 1
  /\ 0 < sp_d (nth 0 sp (mkSp 0 0 0)).
Proof.
  unfold scat_poly. intros E.
  assert (D : let '(c0, c1) := default_conc (s_conc I) in 0 <= c0 /\ 0 <= c1).
  { unfold default_conc. destruct (s_conc I) as [[c0 c1]|]; [destruct (Hc c0 c1 eq_refl) as (A & B & _); auto|lra]. }
  destruct (default_conc (s_conc I)) as [c0 c1]. destruct D as [D0 D1].
  destruct (s_pdi I) as [[p0 p1]|] eqn:Ep; [|discriminate]. destruct (Hnarrow p0 p1 Ep) as (W0 & W1 & V).
  injection E as <- <- <-.
  assert (R0 : 0 < nth 0 (s_radius I) 0).
  { destruct (s_radius I) as [|r rs]; [congruence|]. inversion Hr; subst. cbn. assumption. }
  assert (R1 : 0 < nth 0 (other_radius I) 0).
  { unfold other_radius. destruct (s_radius2 I) as [r2|] eqn:E2; [|exact R0]. destruct (Hr2 r2 eq_refl) as [N F].
    destruct r2 as [|r rs]; [congruence|]. inversion F; subst. cbn. assumption. }
  split; [|split; [reflexivity|split; [reflexivity|split; [|split; [exact V|cbn; lra]]]]].
  - constructor; [|constructor; [|constructor]]; unfold good_sp; cbn [sp_c sp_d]; lra.
  - intros s [<-|[<-|[]]]; cbn [sp_pdi]; assumption.
Qed.

Lemma structure_in n qd st nl : st = S_none \/ qd <> 0 ->
  structure_part nl (s_vf I) qd st (poly_in l (scat_poly I n)) (s_sdata I)
  = structure_part nl (s_vf I) qd st (scat_poly I n) (s_sdata I).
Proof.
  intros H. unfold structure_part. destruct st as [|s| |]; try reflexivity.
  destruct H as [H|H]; [discriminate|].
  destruct (String.eqb s "glass"), (String.eqb s "paracrystal"), (String.eqb s "data"), (String.eqb s "polydisperse"); try reflexivity.
  destruct (scat_poly I n) as [[[sp w] n']|] eqn:E; cbn [poly_in]; [|reflexivity].
  destruct (Nat.ltb 1 nl); [reflexivity|]. do 2 f_equal.
  destruct (species_of_poly n sp w n' E) as (G & L2 & _ & _ & V & D).
  replace (sp_d (nth 0 (map (scale_sp l) sp) (mkSp 0 0 0))) with (l * sp_d (nth 0 sp (mkSp 0 0 0))).
  2:{ destruct sp; [discriminate|]. reflexivity. }
  rewrite <- (factor_poly_scale l (qd / sp_d (nth 0 sp (mkSp 0 0 0))) (s_vf I) sp); try assumption; try lra.
  - f_equal. field. split; lra.
  - apply Rmult_integral_contrapositive_currified; [exact H|]. apply Rinv_neq_0_compat. lra.
  - now right.
Qed.

Lemma poly_form_in factorial f sp : (forall s, In s sp -> species_ok factorial s /\ width (sp_pdi s) <= 1 / 3) ->
  poly_form factorial (fun d => f (d / l)) (map (scale_sp l) sp) = poly_form factorial f sp.
Proof.
  induction sp as [|s sp IH]; intros H; cbn [map poly_form]; [reflexivity|].
  rewrite IH by (intros; apply H; now right). destruct (H s (or_introl eq_refl)) as ((A1 & A2 & A3 & A4 & A5) & B).
  cbn [scale_sp sp_d sp_pdi sp_c]. rewrite unit_free by assumption. reflexivity.
Qed.
Lemma poly_form_at_in factorial f sp : (forall s, In s sp -> species_ok factorial s /\ width (sp_pdi s) <= 1 / 3) ->
  poly_form_at factorial (fun dist d => f (dist / l) (d / l)) (map (scale_sp l) sp) = poly_form_at factorial f sp.
Proof.
  induction sp as [|s sp IH]; intros H; cbn [map poly_form_at]; [reflexivity|].
  rewrite IH by (intros; apply H; now right). destruct (H s (or_introl eq_refl)) as ((A1 & A2 & A3 & A4 & A5) & B).
  cbn [scale_sp sp_d sp_pdi sp_c]. rewrite (unit_free factorial (f (l * sp_d s / 2 / l))) by assumption.
  replace (l * sp_d s / 2 / l) with (sp_d s / 2) by (field; lra). reflexivity.
Qed.

Lemma form_in factorial ang nl x form n t : form_ok factorial nl form (scat_poly I n) ->
  form_part factorial ang nl x form (poly_in l (scat_poly I n)) t = form_part factorial ang nl x form (scat_poly I n) t.
Proof.
  intros [->|[->|(-> & -> & sp & w & n' & E & H)]]; try reflexivity. rewrite E. cbn [poly_in form_part String.eqb Ascii.eqb Bool.eqb Nat.ltb Nat.leb].
  destruct (species_of_poly n sp w n' E) as (_ & _ & -> & W & _).
  assert (S : forall s, In s sp -> species_ok factorial s /\ width (sp_pdi s) <= 1 / 3) by (intros s Hs; split; auto).
  rewrite <- (poly_form_in factorial (fun d => fst (ang [size_parameter (s_wavelen I) n' (d / 2)] t)) sp S).
  rewrite <- (poly_form_in factorial (fun d => snd (ang [size_parameter (s_wavelen I) n' (d / 2)] t)) sp S).
  assert (Q : forall d, size_parameter (l * s_wavelen I) n' (d / 2) = size_parameter (s_wavelen I) n' (d / l / 2)).
  { intros d. rewrite <- (size_in n' (d / l / 2)). f_equal. field. lra. }
  do 2 f_equal; f_equal; apply functional_extensionality; intros d; now rewrite Q.
Qed.
Lemma cform_in factorial ff nl n dist x form : form_ok factorial nl form (scat_poly I (fst n)) ->
  cplx_form_part factorial ff nl n (scat_k J n) (l * dist) x form (poly_in l (scat_poly I (fst n)))
  = cplx_form_part factorial ff nl n (scat_k I n) dist x form (scat_poly I (fst n)).
Proof.
  intros [->|[->|(-> & -> & sp & w & n' & E & H)]]; try reflexivity.
  - cbn [cplx_form_part String.eqb Ascii.eqb Bool.eqb]. now rewrite kd_in.
  - rewrite E. cbn [poly_in cplx_form_part String.eqb Ascii.eqb Bool.eqb Nat.ltb Nat.leb].
    destruct (species_of_poly (fst n) sp w n' E) as (_ & _ & -> & W & _).
    assert (S : forall s, In s sp -> species_ok factorial s /\ width (sp_pdi s) <= 1 / 3) by (intros s Hs; split; auto).
    rewrite <- (poly_form_at_in factorial (fun dist d => fst (ff [csize_parameter (s_wavelen I) n (d / 2)] (Cmult (scat_k I n) (RtoC dist)))) sp S).
    rewrite <- (poly_form_at_in factorial (fun dist d => snd (ff [csize_parameter (s_wavelen I) n (d / 2)] (Cmult (scat_k I n) (RtoC dist)))) sp S).
    assert (Q : forall d, csize_parameter (l * s_wavelen I) n (d / 2) = csize_parameter (s_wavelen I) n (d / l / 2)).
    { intros d. rewrite <- (csize_in n (d / l / 2)). f_equal. field. lra. }
    assert (K : forall a, Cmult (scat_k J n) (RtoC a) = Cmult (scat_k I n) (RtoC (a / l))).
    { intros a. rewrite <- kd_in. do 2 f_equal. field. lra. }
    do 2 f_equal; f_equal; apply functional_extensionality; intros a; apply functional_extensionality; intros d; now rewrite Q, K.
Qed.

(** ** One call of phase_function. *)
Definition qd_good (st : structure_type) (n : C) (x_eff : option (list R)) : Prop :=
  st = S_none \/ (n <> RtoC 0 /\ match x_eff with Some xe => Exists (fun a => a <> 0) xe | None => True end).

Lemma all_angles_in {A} (f g : R -> result A) v : (forall t, In t v -> f t = g t) -> all_angles f v = all_angles g v.
Proof.
  induction v as [|t v IH]; intros H; cbn [all_angles]; [reflexivity|]. rewrite H by now left.
  rewrite IH by (intros; apply H; now right). reflexivity.
Qed.

Lemma absorbing_in factorial mie integ form st n x_eff : integrates_area l integ ->
  form_ok factorial (length (s_np I)) form (scat_poly I (fst n)) -> qd_good st n x_eff ->
  phase_absorbing (integ (scat_k J n)) (scat_surfaces J form) (scat_cdcs factorial mie J form st n x_eff) (linspace (s_min J) PI (s_num J))
  = area_in l (phase_absorbing (integ (scat_k I n)) (scat_surfaces I form) (scat_cdcs factorial mie I form st n x_eff)
                 (linspace (s_min I) PI (s_num I))).
Proof.
  intros Hi Hf Hq. unfold phase_absorbing. change (linspace (s_min J) PI (s_num J)) with (linspace (s_min I) PI (s_num I)).
  rewrite (all_angles_in (scat_cdcs factorial mie J form st n x_eff) (scat_cdcs factorial mie I form st n x_eff)).
  2:{ intros t Ht. apply linspace_in in Ht; [|lra]. unfold scat_cdcs, cplx_dcs.
      change (scat_m J n) with (scat_m I n). rewrite distance_in, x_in, poly_in_eq.
      cbn [in_unit s_np s_vf s_sdata]. rewrite cform_in by exact Hf.
      destruct (cplx_form_part _ _ _ _ _ _ _ _ _) as [f|e]; cbn [bind]; [|reflexivity].
      rewrite structure_in; [reflexivity|]. destruct Hq as [->|[Hn Hx]]; [now left|right].
      apply Rgt_not_eq. apply qd_pos; [|lra]. destruct x_eff as [xe|]; [exact Hx|].
      destruct (s_radius I) as [|r rs] eqn:Er; [congruence|]. inversion Hr; subst. unfold scat_x. rewrite Er. cbn [map]. left.
      apply Rgt_not_eq, Cmod_gt_0. apply Cmult_neq_0; [exact Hn|]. apply RtoC_neq, Rgt_not_eq. apply size_parameter_pos; lra. }
  destruct (all_angles _ _) as [v|e]; cbn [bind area_in]; [|reflexivity].
  destruct (get_all (map fst v)) as [par|], (get_all (map snd v)) as [perp|]; cbn [area_in nmap option_map]; try reflexivity.
  do 3 f_equal. rewrite surfaces_in, k_in. generalize (scat_surfaces I form). intros sf. unfold sum_unpol.
  induction sf as [|s sf IH]; cbn [map fold_right fst snd]; [ring|]. rewrite IH, Hi. ring.
Qed.

Lemma phase_in factorial ang mie integ form st n x_eff : integrates_area l integ ->
  form_ok factorial (length (s_np I)) form (scat_poly I (fst n)) -> qd_good st n x_eff ->
  scat_phase factorial ang (fun n st => phase_absorbing (integ (scat_k J n)) (scat_surfaces J form)
       (scat_cdcs factorial mie J form st n x_eff) (linspace (s_min J) PI (s_num J))) J form st n x_eff
  = area_in l (scat_phase factorial ang (fun n st => phase_absorbing (integ (scat_k I n)) (scat_surfaces I form)
       (scat_cdcs factorial mie I form st n x_eff) (linspace (s_min I) PI (s_num I))) I form st n x_eff).
Proof.
  intros Hi Hf Hq. unfold scat_phase. destruct (Reqb (snd n) 0) eqn:En; cbn [negb].
  2:{ now apply absorbing_in. }
  apply Reqb_true in En. unfold phase_function.
  change (linspace (s_min J) PI (s_num J)) with (linspace (s_min I) PI (s_num I)). change (s_np J) with (s_np I).
  rewrite map_length, xr_in, poly_in_eq.
  rewrite (all_angles_in _ (differential_cross_section factorial (ang (map (fun np => Cdiv np n) (s_np I))) (length (s_np I))
     (map (size_parameter (s_wavelen I) (fst n)) (s_radius I)) x_eff (s_vf I) st form (scat_poly I (fst n)) (s_sdata I))).
  2:{ intros t Ht. apply linspace_in in Ht; [|lra]. unfold differential_cross_section. cbn [in_unit s_vf s_sdata].
      rewrite form_in by exact Hf. destruct (form_part _ _ _ _ _ _ _) as [f|e]; cbn [bind]; [|reflexivity].
      rewrite structure_in; [reflexivity|]. destruct Hq as [->|[Hn Hx]]; [now left|right].
      apply Rgt_not_eq. apply qd_pos; [|lra]. destruct x_eff as [xe|]; [exact Hx|].
      assert (F : fst n <> 0).
      { intros F. apply Hn. destruct n as [a b]. cbn [fst snd] in *. subst. reflexivity. }
      destruct (s_radius I) as [|r rs] eqn:Er; [congruence|]. inversion Hr; subst. cbn [map]. left.
      unfold size_parameter. pose proof PI_RGT_0.
      apply Rmult_integral_contrapositive_currified; [|apply Rinv_neq_0_compat; lra].
      apply Rmult_integral_contrapositive_currified; [|lra].
      apply Rmult_integral_contrapositive_currified; [lra|exact F]. }
  destruct (all_angles _ _) as [v|e]; cbn [bind area_in]; [|reflexivity].
  destruct (get_all (map fst v)) as [par|], (get_all (map snd v)) as [perp|]; cbn [area_in nmap option_map]; try reflexivity.
  do 3 f_equal.
  replace (1 / Rabs (2 * PI * fst n / s_wavelen J) ^ 2) with (l ^ 2 * (1 / Rabs (2 * PI * fst n / s_wavelen I) ^ 2)).
  2:{ cbn [in_unit s_wavelen].
      replace (2 * PI * fst n / (l * s_wavelen I)) with (/ l * (2 * PI * fst n / s_wavelen I)) by (field; lra).
      rewrite Rabs_mult, (Rabs_pos_eq (/ l)) by (left; now apply Rinv_0_lt_compat).
      rewrite Rpow_mult_distr. unfold Rdiv. rewrite !Rmult_1_l, Rinv_mult, pow_inv, Rinv_inv. ring. }
  rewrite !integrate_factor. field.
Qed.

Lemma calc_scat_in factorial ang mie integ n : integrates_area l integ -> surroundings_c I n -> n <> RtoC 0 ->
  (s_poly I = true -> s_pdi I <> None /\ length (s_np I) = 1%nat) ->
  form_ok factorial (length (s_np I)) (form_used I) (scat_poly I (fst n)) ->
  calc_scat_any factorial ang mie integ J = coefficients_in_unit l (calc_scat_any factorial ang mie integ I).
Proof.
  intros Hi Hs Hn Hp Hf. destruct (scat_medium_c I n Hs Hne Hr Hn Hw) as (x_eff & Em & Hx).
  unfold calc_scat_any, calc_scat. rewrite medium_in, types_in, Em, (scat_types_ok I Hp). cbn [bind].
  rewrite (phase_in factorial ang mie integ (form_used I) (structure_used I) n x_eff Hi Hf).
  2:{ right. split; [exact Hn|]. destruct x_eff; [exact Hx|exact Logic.I]. }
  destruct (scat_phase _ _ _ I _ _ n x_eff) as [[p s]|e]; cbn [bind area_in coefficients_in_unit]; [|reflexivity].
  rewrite rho_in. change (s_fine J) with (s_fine I). change (s_nmatrix J) with (s_nmatrix I).
  assert (M : forall r a, nmap2 Rmult (nmap (fun r => r / l ^ 3) r) (nmap (fun a => l ^ 2 * a) a)
              = nmap (fun m => m / l) (nmap2 Rmult r a)).
  { intros [r|] [a|]; cbn [nmap nmap2 option_map]; try reflexivity. f_equal. field. lra. }
  assert (A : 4 * PI * snd n / s_wavelen J = 4 * PI * snd n / s_wavelen I / l) by (cbn [in_unit s_wavelen]; field; lra).
  rewrite A. cbn [fst snd]. rewrite M.
  destruct (Rltb 0 (s_fine I)); [|reflexivity].
  destruct (s_nmatrix I) as [n'|]; [|reflexivity].
  assert (Hf' : form_ok factorial (length (s_np I)) (form_used I) (scat_poly I (fst n'))).
  { destruct Hf as [Hf|[Hf|(E1 & E2 & sp & w & m & E & H)]]; [now left|right; now left|right; right].
    split; [exact E1|]. split; [exact E2|]. exists sp, w, (fst n'). split; [|exact H].
    revert E. unfold scat_poly. destruct (default_conc (s_conc I)). destruct (s_pdi I) as [[p0 p1]|]; [|discriminate].
    intros E. injection E as <- <- <-. reflexivity. }
  assert (X := fun Y => phase_in factorial ang mie integ (form_used I) S_none n' None Hi Hf' (or_introl Y)).
  specialize (X eq_refl).
  assert (Z : forall K, scat_phase factorial ang (fun n0 st => phase_absorbing (integ (scat_k K n0)) (scat_surfaces K (form_used I))
       (scat_cdcs factorial mie K (form_used I) st n0 x_eff) (linspace (s_min K) PI (s_num K))) K (form_used I) S_none n' None
    = scat_phase factorial ang (fun n0 st => phase_absorbing (integ (scat_k K n0)) (scat_surfaces K (form_used I))
       (scat_cdcs factorial mie K (form_used I) st n0 None) (linspace (s_min K) PI (s_num K))) K (form_used I) S_none n' None).
  { intros K. unfold scat_phase. destruct (negb _); [|reflexivity]. f_equal. }
  rewrite (Z J), X, <- (Z I).
  destruct (scat_phase _ _ _ I _ S_none n' None) as [[p' s']|e]; cbn [bind area_in fst snd coefficients_in_unit]; [|reflexivity].
  now rewrite M.
Qed.
End Units.
