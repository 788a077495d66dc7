(** The differential cross section, and the whole of [reflection]. *)
From Verif Require Import Num Spec Spec_scatter Spec_optics L_num L_trapezoid M_model M_structure M_reflection
  M_refractive_index L_montecarlo2 L_slots L_fresnel L_structure L_structure2 L_poly L_reflection Spec_reflection L_reflection2 L_reflection3
  L_reflection4 L_sizes L_units.
From Coquelicot Require Import Complex.
From Coq Require Import Lia Lra.
Open Scope R_scope.

Lemma nlayers_one n : n = 1%nat -> Nat.ltb 1 n = false.
Proof. intros ->. reflexivity. Qed.

Lemma form_part_ok factorial ang n x ft poly th : form_ok factorial n ft poly ->
  (forall y t, 0 <= fst (ang y t) /\ 0 <= snd (ang y t)) ->
  exists p s, form_part factorial ang n x ft poly th = Ok (Some p, Some s) /\ 0 <= p /\ 0 <= s.
Proof.
  intros Hf Ha. unfold form_part. destruct Hf as [->|[->|(-> & Hn & l & w & nm & -> & Hs)]].
  - exists 1, 1. split; [reflexivity|lra].
  - exists (fst (ang x th)), (snd (ang x th)). split; [reflexivity|apply Ha].
  - cbn [String.eqb]. change (String.eqb "polydisperse" "sphere") with false.
    change (String.eqb "polydisperse" "polydisperse") with true. cbv iota.
    rewrite nlayers_one by exact Hn.
    assert (Q : forall f, (forall d, 0 <= f d) ->
      exists v, poly_form factorial f l = Some v /\ 0 <= v).
    { intros f F0.
      revert Hs. clear - F0. induction l as [|s l IH]; intros Hs.
      - exists 0. cbn. split; [reflexivity|lra].
      - destruct IH as (w & Ew & Hw); [intros; apply Hs; now right|].
        destruct (Hs s (or_introl eq_refl)) as (C0 & C1 & C2 & C3 & C4).
        destruct (grid_ok (sp_d s) (sp_pdi s) C1 C2 C3) as (G1 & G2 & G3 & G4 & G5).
        destruct (size_dist_ok factorial (sp_d s) (sp_pdi s) C1 C2 C3 C4) as (ws & E1 & E2 & E3 & E4).
        cbn [poly_form]. unfold poly_integral. rewrite E1, get_all_some, Ew. cbn [nmap2].
        eexists. split; [reflexivity|].
        assert (0 <= trapezoid (map2 Rmult (map f (diameter_grid (sp_d s) (pdi_t (sp_pdi s)))) ws)
                       (diameter_grid (sp_d s) (pdi_t (sp_pdi s)))).
        { apply trapezoid_nonneg; [exact G1|].
          generalize (diameter_grid (sp_d s) (pdi_t (sp_pdi s))). intros g. revert g E3. clear - F0.
          induction ws as [|x ws IH]; intros [|d g] E3; cbn; try constructor.
          - inversion E3; subst. apply Rmult_le_pos; [apply F0|assumption].
          - inversion E3; subst. now apply IH. }
        nra. }
    destruct (Q (fun d => fst (ang [size_parameter w nm (d / 2)] th))) as (p & -> & Hp); [intros; apply Ha|].
    destruct (Q (fun d => snd (ang [size_parameter w nm (d / 2)] th))) as (s & -> & Hs'); [intros; apply Ha|].
    exists p, s. auto.
Qed.

Lemma structure_part_ok n vf qd st poly sdata : structure_ok n vf st poly sdata -> 0 < qd ->
  exists v, structure_part n vf qd st poly sdata = Ok (Some v) /\ 0 <= v.
Proof.
  intros H Hq. destruct st as [s|name sigma| |]; cbn in H |- *.
  - destruct H as [[-> Hv]|[->|[(-> & t & -> & Hi & Hl & Hp)|(-> & -> & Hp)]]]; cbn.
    + destruct (factor_py_value qd vf Hq Hv) as [P ->]. eexists. split; [reflexivity|].
      left. apply Rmult_lt_0_compat; [lra|now apply Rinv_0_lt_compat].
    + destruct (factor_para_value qd vf 0.15 Hq ltac:(lra)) as (S & -> & P & _). exists S. split; [reflexivity|lra].
    + assert (Hb : exists hi, forall p, In p t -> 0 <= snd p <= hi).
      { clear - Hp. induction t as [|a t IH].
        - exists 0. intros p [].
        - destruct IH as [hi IH]; [intros; apply Hp; now right|]. exists (Rmax hi (snd a)).
          intros p [<-|Hin]; [split; [apply Hp; now left|apply Rmax_r]|].
          destruct (IH p Hin). split; [assumption|]. eapply Rle_trans; [eassumption|apply Rmax_l]. }
      destruct Hb as [hi Hb].
      destruct (factor_data_range t qd 0 hi Hi Hl Hb) as (v & -> & Bv). exists v. cbn. split; [reflexivity|lra].
    + destruct poly as [[[l w] nm]|]; [|congruence]. cbn. eexists. split; [reflexivity|]. apply factor_poly_nonneg.
  - destruct H as (-> & s & -> & Hs). cbn.
    destruct (factor_para_value qd vf s Hq Hs) as (S & -> & P & _). exists S. split; [reflexivity|lra].
  - exists 1. split; [reflexivity|lra].
  - destruct H.
Qed.

Lemma max_abs_pos x : Exists (fun a => a <> 0) x -> 0 < Rmax_list (map Rabs x).
Proof.
  assert (N : forall l, 0 <= Rmax_list l).
  { induction l as [|a l IH]; cbn; [lra|]. eapply Rle_trans; [exact IH|apply Rmax_r]. }
  induction 1 as [a l Ha|a l H IH]; cbn.
  - eapply Rlt_le_trans; [|apply Rmax_l]. now apply Rabs_pos_lt.
  - eapply Rlt_le_trans; [exact IH|apply Rmax_r].
Qed.

Lemma qd_pos x th : Exists (fun a => a <> 0) x -> 0 < th <= PI -> 0 < qd_of x th.
Proof.
  intros Hx Ht. pose proof PI_RGT_0. unfold qd_of. pose proof (max_abs_pos x Hx).
  apply Rmult_lt_0_compat; [lra|]. apply sin_gt_0; lra.
Qed.

Lemma dcs_ok factorial ang n x x_eff vf st ft poly sdata th :
  form_ok factorial n ft poly -> structure_ok n vf st poly sdata ->
  (forall y t, 0 <= fst (ang y t) /\ 0 <= snd (ang y t)) ->
  Exists (fun a => a <> 0) (match x_eff with Some xe => xe | None => x end) -> 0 < th <= PI ->
  exists S fp fs, 0 <= S /\ 0 <= fp /\ 0 <= fs
    /\ structure_part n vf (qd_of (match x_eff with Some xe => xe | None => x end) th) st poly sdata = Ok (Some S)
    /\ form_part factorial ang n x ft poly th = Ok (Some fp, Some fs)
    /\ differential_cross_section factorial ang n x x_eff vf st ft poly sdata th = Ok (Some (S * fp), Some (S * fs)).
Proof.
  intros Hf Hs Ha Hx Ht.
  destruct (form_part_ok factorial ang n x ft poly th Hf Ha) as (fp & fs & Ef & F1 & F2).
  destruct (structure_part_ok n vf _ st poly sdata Hs (qd_pos _ th Hx Ht)) as (S & Es & S0).
  exists S, fp, fs. repeat split; try assumption.
  unfold differential_cross_section. rewrite Ef. cbn [bind]. rewrite Es. reflexivity.
Qed.

(** ** The whole calculation for a real sample index *)

Lemma reflection_is_real fsolve factorial ang cabs absorbing I n ne :
  length (i_nparticle I) = length (i_radius I) -> sample_is fsolve I n ne ->
  exists A x_eff, let x := map (size_parameter (i_wavelen I) n) (i_radius I) in
    let m := map (fun np => Cdiv np (RtoC n)) (i_nparticle I) in
    reflection fsolve factorial ang cabs absorbing I
    = reflection_real A (differential_cross_section factorial (ang m) (length m) x x_eff (i_vf I)
                           (i_structure I) (i_form I) (refl_poly I n) (i_sdata I))
    /\ A = mk_rargs (i_nmedium I) n (i_wavelen I)
             (reflection_rho (i_vf I) (i_radius I)
                (match i_radius2 I with Some r => r | None => i_radius I end) (i_conc I))
             (cabs m x) (i_thickness I) (i_tmin I) (i_tmax I) (i_pmin I) (i_pmax I) (i_inc I) (i_num I) (i_small I)
    /\ x_eff = match ne with
               | Some z => Some (map (fun r => Cmod (Cmult z (RtoC (size_parameter (i_wavelen I) 1 r)))) (i_radius I))
               | None => None end.
Proof.
  intros Hl Hs. eexists _, _. cbv zeta. split; [|split; reflexivity].
  unfold reflection. rewrite Hl, Nat.eqb_refl. cbn [negb]. unfold sample_is in Hs. rewrite Hs. cbn [bind].
  unfold RtoC at 1 2. cbn [snd fst].
  rewrite (proj2 (Reqb_true 0 0)) by reflexivity. cbn [negb]. reflexivity.
Qed.

Lemma rho_pos vf r r2 c : 0 < vf -> 0 < Rmax_list r -> 0 < Rmax_list r2 ->
  (forall c0 c1, c = Some (c0, c1) -> 0 <= c0 /\ 0 <= c1) -> 0 < reflection_rho vf r r2 c.
Proof.
  intros Hv Hr Hr2 Hc. pose proof PI_RGT_0. pose proof (pow_lt _ 3 Hr) as R3. pose proof (pow_lt _ 3 Hr2) as R23.
  assert (M : 0 < number_density vf (Rmax_list r)).
  { unfold number_density. apply Rmult_lt_0_compat; [lra|]. apply Rinv_0_lt_compat. nra. }
  unfold reflection_rho. destruct c as [[c0 c1]|]; [|exact M].
  destruct (Hc c0 c1 eq_refl) as [H0 H1].
  destruct (Reqb c0 0) eqn:E0; cbn [orb]; [exact M|]. destruct (Reqb c1 0) eqn:E1; [exact M|].
  apply Reqb_false in E0. apply Reqb_false in E1.
  assert (0 < Rmax_list r2 ^ 3 * c1 / c0)
    by (apply Rmult_lt_0_compat; [apply Rmult_lt_0_compat; lra|apply Rinv_0_lt_compat; lra]).
  assert (0 < Rmax_list r ^ 3 * c0 / c1)
    by (apply Rmult_lt_0_compat; [apply Rmult_lt_0_compat; lra|apply Rinv_0_lt_compat; lra]).
  apply Rmult_lt_0_compat.
  - apply Rmult_lt_0_compat; [lra|]. apply Rinv_0_lt_compat. lra.
  - assert (0 < 1 / (Rmax_list r ^ 3 + Rmax_list r2 ^ 3 * c1 / c0))
      by (apply Rmult_lt_0_compat; [lra|apply Rinv_0_lt_compat; lra]).
    assert (0 < 1 / (Rmax_list r2 ^ 3 + Rmax_list r ^ 3 * c0 / c1))
      by (apply Rmult_lt_0_compat; [lra|apply Rinv_0_lt_compat; lra]). lra.
Qed.

Lemma Rmax_list_pos l : Exists (fun a => 0 < a) l -> 0 < Rmax_list l.
Proof.
  induction 1 as [a l Ha|a l H IH]; cbn.
  - eapply Rlt_le_trans; [exact Ha|apply Rmax_l].
  - eapply Rlt_le_trans; [exact IH|apply Rmax_r].
Qed.

Lemma Forall_Exists_pos l : l <> [] -> Forall (fun r => 0 < r) l -> Exists (fun r => 0 < r) l.
Proof. destruct l as [|a l]; [congruence|]. intros _ H. inversion H; subst. now left. Qed.

Lemma reflection_gives_full fsolve factorial ang cabs absorbing I n ne :
  inputs_ok factorial I n ne -> sample_is fsolve I n ne ->
  (forall m y t, 0 <= fst (ang m y t) /\ 0 <= snd (ang m y t)) -> (forall m y, 0 <= cabs m y) ->
  exists A dcs P S, reflection fsolve factorial ang cabs absorbing I = reflection_real A dcs
    /\ geometry_ok A /\ gives A dcs P S
    /\ a_nmedium A = i_nmedium I /\ a_nsample A = n /\ a_inc A = i_inc I /\ a_thickness A = i_thickness I
    /\ a_tmin A = i_tmin I /\ a_tmax A = i_tmax I /\ a_pmin A = i_pmin I /\ a_pmax A = i_pmax I
    /\ a_rho A = reflection_rho (i_vf I) (i_radius I)
                (match i_radius2 I with Some r => r | None => i_radius I end) (i_conc I)
    /\ a_cabs A = cabs (map (fun np => Cdiv np (RtoC n)) (i_nparticle I)) (map (size_parameter (i_wavelen I) n) (i_radius I))
    /\ a_wavelen A = i_wavelen I /\ a_num A = i_num I /\ a_small A = i_small I
    /\ dcs = (let m := map (fun np => Cdiv np (RtoC n)) (i_nparticle I) in
              differential_cross_section factorial (ang m) (length (i_nparticle I))
                (map (size_parameter (i_wavelen I) n) (i_radius I))
                (match ne with
                 | Some z => Some (map (fun r => Cmod (Cmult z (RtoC (size_parameter (i_wavelen I) 1 r)))) (i_radius I))
                 | None => None end) (i_vf I)
                (i_structure I) (i_form I) (refl_poly I n) (i_sdata I)).
Proof.
  intros (H1 & H2 & H3 & H4 & H5 & H6 & H7 & H8 & H9 & H10 & H11 & H12 & H13 & H14 & H15 & H16 & H17 & H18 & H19)
    Hs Ha Hc.
  destruct (reflection_is_real fsolve factorial ang cabs absorbing I n ne H1 Hs) as (A & x_eff & Er & EA & Ex).
  cbv zeta in Er, EA. set (m := map (fun np => Cdiv np (RtoC n)) (i_nparticle I)) in *.
  set (x := map (size_parameter (i_wavelen I) n) (i_radius I)) in *.
  pose proof PI_RGT_0 as HP.
  assert (Em : length m = length (i_nparticle I)) by (unfold m; apply map_length).
  set (dcs := differential_cross_section factorial (ang m) (length m) x x_eff (i_vf I)
                (i_structure I) (i_form I) (refl_poly I n) (i_sdata I)) in *.
  assert (Rr : 0 < Rmax_list (i_radius I)) by (apply Rmax_list_pos; now apply Forall_Exists_pos).
  assert (G : geometry_ok A).
  { subst A. unfold geometry_ok; cbn. repeat split; try lra; try assumption; try (apply Hc).
    apply rho_pos; try assumption. destruct (i_radius2 I) as [r2|]; [|exact Rr].
    destruct (H4 r2 eq_refl). apply Rmax_list_pos. now apply Forall_Exists_pos. }
  assert (Ok1 : forall t, 0 < t <= PI -> exists p s, dcs t = Ok (Some p, Some s) /\ 0 <= p /\ 0 <= s).
  { intros t Ht.
    destruct (dcs_ok factorial (ang m) (length m) x x_eff (i_vf I) (i_structure I) (i_form I) (refl_poly I n)
                (i_sdata I) t) as (S & fp & fs & S0 & P0 & Q0 & _ & _ & E).
    - now rewrite Em.
    - now rewrite Em.
    - intros. apply Ha.
    - assert (Sp : forall k r, 0 < k -> 0 < r -> 0 < size_parameter (i_wavelen I) k r).
      { intros k r Hk Hr. unfold size_parameter. apply Rmult_lt_0_compat; [|now apply Rinv_0_lt_compat].
        apply Rmult_lt_0_compat; [apply Rmult_lt_0_compat; lra|exact Hr]. }
      destruct (i_radius I) as [|r0 rs] eqn:Erad; [congruence|]. inversion H3; subst.
      destruct ne as [z|]; cbn.
      + left. apply Rgt_not_eq. apply Cmod_gt_0. apply Cmult_neq_0; [now apply H7|].
        apply RtoC_neq. apply Rgt_not_eq. apply Sp; lra.
      + left. apply Rgt_not_eq. now apply Sp.
    - exact Ht.
    - exists (S * fp), (S * fs). split; [exact E|]. split; now apply Rmult_le_pos. }
  set (P := fun t => match dcs t with Ok (Some p, _) => p | _ => 0 end).
  set (S := fun t => match dcs t with Ok (_, Some s) => s | _ => 0 end).
  exists A, dcs, P, S. split; [exact Er|]. split; [exact G|]. split.
  - intros t Ht.
    assert (Hr : 0 < t <= PI).
    { destruct Ht as [Ht|Ht]; [pose proof (detected_in A t G Ht); lra|].
      assert (Es : a_small A = i_small I) by now subst A.
      unfold total_angles in Ht. rewrite Rplus_0_l, Es in Ht. apply linspace_in in Ht; lra. }
    destruct (Ok1 t Hr) as (p & s & E & P0 & S0). unfold P, S. rewrite E. auto.
  - subst A. cbn. repeat (split; [reflexivity|]). unfold dcs. rewrite Em. now subst x_eff.
Qed.

Lemma reflection_gives fsolve factorial ang cabs absorbing I n ne :
  inputs_ok factorial I n ne -> sample_is fsolve I n ne ->
  (forall m y t, 0 <= fst (ang m y t) /\ 0 <= snd (ang m y t)) -> (forall m y, 0 <= cabs m y) ->
  exists A dcs P S, reflection fsolve factorial ang cabs absorbing I = reflection_real A dcs
    /\ geometry_ok A /\ gives A dcs P S
    /\ a_nmedium A = i_nmedium I /\ a_nsample A = n /\ a_inc A = i_inc I /\ a_thickness A = i_thickness I
    /\ a_tmin A = i_tmin I /\ a_tmax A = i_tmax I /\ a_pmin A = i_pmin I /\ a_pmax A = i_pmax I
    /\ a_rho A = reflection_rho (i_vf I) (i_radius I)
                (match i_radius2 I with Some r => r | None => i_radius I end) (i_conc I)
    /\ a_cabs A = cabs (map (fun np => Cdiv np (RtoC n)) (i_nparticle I)) (map (size_parameter (i_wavelen I) n) (i_radius I)).
Proof.
  intros HI Hs Ha Hc.
  destruct (reflection_gives_full fsolve factorial ang cabs absorbing I n ne HI Hs Ha Hc)
    as (A & dcs & P & S & H1 & H2 & H3 & H4 & H5 & H6 & H7 & H8 & H9 & H10 & H11 & H12 & H13 & _).
  exists A, dcs, P, S. auto 20.
Qed.
