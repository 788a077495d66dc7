(** The whole calculation, C119. *)
From Coq Require Import Lra Lia Psatz.
From Verif Require Import Num Spec Spec_scatter Spec_optics Spec_reflection Spec_scat Spec_detector Spec_events
  L_num L_trapezoid L_montecarlo2 L_reflection L_reflection2 L_sizes L_sampling L_scat L_simulation
  M_init M_montecarlo M_detector M_structure M_refractive_index M_reflection M_scat M_simulation M_workflow
  Properties_scat Properties_simulation.
From Coquelicot Require Import Complex.
Open Scope R_scope.

(** If the trapezoid sum of a non-negative function is positive the plain sum
    over the grid is. *)
Lemma trap_total (f : R -> R) g : (forall t, In t g -> 0 <= f t) -> 0 < trap_int f g -> 0 < total (map f g).
Proof.
  intros Hn Hp. assert (Hs : forall l, (forall t, In t l -> 0 <= f t) -> 0 <= total (map f l)).
  { induction l as [|t l IH]; intros H; cbn [map total]; [lra|].
    pose proof (H t (or_introl eq_refl)). specialize (IH (fun u Hu => H u (or_intror Hu))). lra. }
  destruct (Rlt_le_dec 0 (total (map f g))) as [H|H]; [exact H|exfalso].
  assert (Z : forall l, (forall t, In t l -> 0 <= f t) -> total (map f l) <= 0 -> trap_int f l = 0 /\ (forall t, In t l -> f t = 0)).
  { induction l as [|a l IH]; intros H1 H2; [split; [reflexivity|intros t []]|].
    cbn [map total] in H2. pose proof (H1 a (or_introl eq_refl)).
    pose proof (Hs l (fun u Hu => H1 u (or_intror Hu))).
    destruct (IH (fun u Hu => H1 u (or_intror Hu)) ltac:(lra)) as [I1 I2].
    assert (E : f a = 0) by lra. split.
    - destruct l as [|b l]; [reflexivity|]. cbn [trap_int] in *. rewrite I1, E, (I2 b (or_introl eq_refl)). lra.
    - intros t [<-|Ht]; [exact E|now apply I2]. }
  destruct (Z g Hn H) as [H0 _]. lra.
Qed.

Lemma scat_total f g : total (map f g) = total (map (fun i => f (nth i g 0)) (seq 0 (length g))).
Proof.
  f_equal. induction g as [|a g IH]; [reflexivity|]. cbn [length seq map nth]. f_equal.
  rewrite IH, <- seq_shift, map_map. reflexivity.
Qed.

Lemma workflow_reduces run factorial ang special I n nevents ntraj P D up ut :
  scat_ok factorial I n -> surroundings I n -> s_fine I <= 0 ->
  (forall m y t, 0 <= fst (ang m y t) /\ 0 <= snd (ang m y t)) ->
  (forall e i, 0 <= up e i < 1 /\ 0 <= ut e i < 1) ->
  exists o mu, calc_scat factorial ang special I = Ok o /\ o_mu o = Some mu /\ 0 <= mu
    /\ (0 < mu -> exists rows, workflow run factorial ang special I nevents ntraj P D up ut
                     = run mu (set_muabs P 0) (set_angles D rows)).
Proof.
  intros SO SU Hf Ha Hu. pose proof PI_RGT_0 as HP.
  destruct (calc_scat_ok factorial ang special I n SO SU Hf Ha)
    as (o & Pc & Sc & xe & rho & Eo & Em & Er & Ev & Hrho & HPS & Ep & Emu & Emie & Eabs).
  destruct SO as (_ & _ & _ & _ & Hn & Hw & _ & Hmin & _).
  set (g := scat_grid I) in *.
  assert (Hk : 0 < 2 * PI * n / s_wavelen I) by (apply Rdiv_lt_0_compat; nra).
  assert (Hgr : forall t, In t g -> 0 < t <= PI).
  { intros t Ht. unfold g, scat_grid in Ht. apply linspace_in in Ht; lra. }
  assert (Hun : forall t, In t g -> 0 <= unpol Pc Sc t).
  { intros t Ht. destruct (HPS t Ht) as (_ & A & B). unfold unpol. lra. }
  assert (Hsn : forall t, In t g -> 0 <= unpol Pc Sc t * sin t).
  { intros t Ht. apply Rmult_le_pos; [now apply Hun|]. destruct (Hgr t Ht). apply sin_ge_0; lra. }
  assert (Hcs : 0 <= cross_sec (2 * PI * n / s_wavelen I) (2 * PI) g (unpol Pc Sc)).
  { apply sigma_nonneg; try assumption; try lra.
    - apply linspace_ascending; lra.
    - intros t Ht. destruct (Hgr t Ht). lra. }
  exists o. eexists. split; [exact Eo|]. split; [exact Emu|]. split; [apply Rmult_le_pos; lra|]. intros Hpos.
  assert (Hc : 0 < cross_sec (2 * PI * n / s_wavelen I) (2 * PI) g (unpol Pc Sc)).
  { destruct Hcs as [H|H]; [exact H|]. rewrite <- H in Hpos. lra. }
  assert (Htr : 0 < trap_int (fun t => unpol Pc Sc t * sin t) g).
  { unfold cross_sec in Hc. set (A := 2 * PI / _) in Hc. assert (0 < A) by (apply Rdiv_lt_0_compat; [lra|now apply pow_lt]).
    apply Rmult_lt_reg_l with A; [assumption|]. lra. }
  pose proof (trap_total _ g Hsn Htr) as Ht.
  set (s := total (map (fun t => Pc t + Sc t) g)).
  assert (Hs : 0 < s).
  { apply Rlt_le_trans with (total (map (fun t => unpol Pc Sc t * sin t) g)); [exact Ht|]. unfold s.
    clear -HPS Hgr. induction g as [|t l IH]; [apply Rle_refl|]. cbn [map total].
    apply Rplus_le_compat; [|apply IH; intros; [apply HPS|apply Hgr]; now right].
    destruct (HPS t (or_introl eq_refl)) as (_ & A & B). pose proof (SIN_bound t). unfold unpol. nra. }
  assert (Eq : o_p o = map (fun t => Some ((Pc t + Sc t) / s)) g).
  { rewrite Ep. apply (phase_dist Pc Sc g); [intros t Hi; split; now apply HPS|]. fold s. lra. }
  assert (L : length (map (fun t => (Pc t + Sc t) / s) g) = s_num I).
  { rewrite map_length. apply linspace_length. }
  destruct (C110_array nevents ntraj (map (fun t => (Pc t + Sc t) / s) g) (s_min I) up ut) as (rows & Erows & _).
  - lra.
  - apply Forall_map, Forall_forall. intros t Hi. destruct (HPS t Hi) as (_ & A & B).
    apply Rmult_le_pos; [lra|left; now apply Rinv_0_lt_compat].
  - exact Hu.
  - rewrite L. rewrite (scat_total _ g) in Ht. replace (length g) with (s_num I) in Ht by (symmetry; apply linspace_length).
    apply Rlt_le_trans with (2 / s * total (map (fun i => unpol Pc Sc (nth i g 0) * sin (nth i g 0)) (seq 0 (s_num I)))).
    + apply Rmult_lt_0_compat; [apply Rdiv_lt_0_compat; lra|exact Ht].
    + right. clear Ht. assert (Q : forall (f h : nat -> R) (l : list nat), (forall i, In i l -> 2 / s * f i = h i) -> 2 / s * total (map f l) = total (map h l)).
      { clear. induction l as [|i l IH]; intros H; cbn [map total]; [ring|].
        rewrite Rmult_plus_distr_l, (H i (or_introl eq_refl)), IH; [reflexivity|]. intros; apply H; now right. }
      apply Q. intros i Hi. apply in_seq in Hi.
      assert (Eg : grid (s_min I) PI (s_num I) i = nth i g 0).
      { unfold g, scat_grid. rewrite linspace_nth by lia. reflexivity. }
      rewrite Eg. rewrite (nth_indep (map (fun t => (Pc t + Sc t) / s) g) 0 ((Pc 0 + Sc 0) / s)) by (rewrite L; lia).
      rewrite (map_nth (fun t => (Pc t + Sc t) / s)). unfold unpol. field. lra.
  - exists rows. unfold workflow. rewrite Eo. cbn [bind]. unfold after_scat. rewrite Eq, get_all_somes, Erows. cbn [bind].
    rewrite Emu, Eabs. reflexivity.
Qed.

(** C119.  Take any non-absorbing film whose description calc_scat accepts, at
    an index not below that of the medium.  Then calc_scat returns a
    non-negative scattering coefficient, and if it is positive the whole
    calculation, whatever the random draws, does not raise; the reflectance and
    transmittance, if numbers, are fractions, and for the plain call that
    detects the full hemisphere they add up to 1. *)
Theorem C119_film : forall factorial ang special I n nevents ntraj spot tmin tmax pmin pmax P D u_phi u_theta,
  scat_ok factorial I n -> surroundings I n -> s_fine I <= 0 ->
  (forall m y t, 0 <= fst (ang m y t) /\ 0 <= snd (ang m y t)) ->
  (forall e i, 0 <= u_phi e i < 1 /\ 0 <= u_theta e i < 1) ->
  (0 < nevents)%nat -> (0 < ntraj)%nat -> 0 < spot ->
  in01 (d_l0 D) -> in01 (d_l1 D) -> (forall n i, 0 <= d_u D n i < 1) ->
  valid_params P ntraj -> 0 < p_nmedium P <= p_nsample P ->
  p_kz0rot P = None -> p_kz0refl P = None -> p_boundary P = film -> p_run P = false ->
  exists o mu, calc_scat factorial ang special I = Ok o /\ o_mu o = Some mu /\ 0 <= mu
    /\ (0 < mu -> exists oo,
          film_workflow factorial ang special I nevents ntraj spot tmin tmax pmin pmax P D u_phi u_theta = Ok oo
          /\ forall r, oo = Some r -> 0 <= o_refl r /\ 0 <= o_trans r /\ o_refl r + o_trans r <= 1
               /\ (plain P -> full_detection P -> o_refl r + o_trans r = 1)).
Proof.
  intros factorial ang special I n nevents ntraj spot tmin tmax pmin pmax P D up ut SO SU Hf Ha Hu Hn Ht Hs H0 H1 Hd Hv Hm K1 K2 Hb Hr.
  destruct (workflow_reduces (film_run nevents ntraj spot tmin tmax pmin pmax) factorial ang special I n nevents ntraj P D up ut SO SU Hf Ha Hu)
    as (o & mu & Eo & Emu & Hmu & H).
  exists o, mu. split; [exact Eo|]. split; [exact Emu|]. split; [exact Hmu|]. intros Hpos.
  destruct (H Hpos) as (rows & E). unfold film_workflow. rewrite E.
  destruct (C103_film_run nevents ntraj spot tmin tmax pmin pmax mu (set_muabs P 0) (set_angles D rows)) as (oo & Eoo & Q);
    try assumption; try apply Rle_refl.
  exists oo. split; [exact Eoo|]. intros r Er. destruct (Q r Er) as (A1 & A2 & A3 & A4).
  split; [exact A1|]. split; [exact A2|]. split; [exact A3|]. intros Hp Hfd. apply A4; [exact Hp|exact Hfd|reflexivity].
Qed.
Print Assumptions C119_film.

(** A sample that scatters in no direction of the grid has no phase function
    (0/0), and choosing angles from it is refused. *)
Theorem C119_dark : forall run factorial ang special I n x_eff nevents ntraj P D u_phi u_theta,
  scat_ok factorial I n -> surroundings I n -> s_fine I <= 0 ->
  (forall m y t, 0 <= fst (ang m y t) /\ 0 <= snd (ang m y t)) ->
  (0 < s_num I)%nat -> scat_medium I = Ok (RtoC n, x_eff) ->
  (forall t, In t (scat_grid I) -> scat_dcs factorial ang I (form_used I) (structure_used I) n x_eff t = Ok (Some 0, Some 0)) ->
  workflow run factorial ang special I nevents ntraj P D u_phi u_theta = Err ValueError.
Proof.
  intros run factorial ang special I n x_eff nevents ntraj P D up ut SO SU Hf Ha Hnum Em Hz.
  destruct (calc_scat_ok factorial ang special I n SO SU Hf Ha) as (o & Pc & Sc & xe & rho & Eo & Em' & _ & _ & _ & HPS & Ep & _).
  assert (xe = x_eff) as -> by congruence.
  assert (Z : forall t, In t (scat_grid I) -> Pc t = 0 /\ Sc t = 0).
  { intros t Ht. destruct (HPS t Ht) as (E & _). rewrite (Hz t Ht) in E.
    assert (Some 0 = Some (Pc t) /\ Some 0 = Some (Sc t)) as [E1 E2] by (split; congruence). split; congruence. }
  unfold workflow. rewrite Eo. cbn [bind]. unfold after_scat.
  assert (N : get_all (o_p o) = None); [|now rewrite N].
  assert (L : length (scat_grid I) = s_num I) by apply linspace_length.
  rewrite Ep. unfold phase_function_p, M_montecarlo.normalise. rewrite L_slots.map2_maps.
  assert (E0 : Rsum (map (fun t => Pc t + Sc t) (scat_grid I)) = 0).
  { change Rsum with total. revert Z. generalize (scat_grid I). induction l as [|t l IH]; intros Z; [reflexivity|]. cbn [map total].
    destruct (Z t (or_introl eq_refl)) as [-> ->]. rewrite IH by (intros; apply Z; now right). ring. }
  rewrite E0. destruct (scat_grid I) as [|t g]; [cbn in L; lia|]. cbn [map]. unfold ndiv. rewrite (proj2 (Reqb_true 0 0)) by reflexivity. reflexivity.
Qed.
Print Assumptions C119_dark.

(** The same for a sphere, with re-runs; there the results are always numbers.
    (Its radial launch draws are non-zero, C20.) *)
Theorem C119_sphere : forall factorial ang special I n nevents ntraj spot P D u_phi u_theta,
  scat_ok factorial I n -> surroundings I n -> s_fine I <= 0 ->
  (forall m y t, 0 <= fst (ang m y t) /\ 0 <= snd (ang m y t)) ->
  (forall e i, 0 <= u_phi e i < 1 /\ 0 <= u_theta e i < 1) ->
  (0 < nevents)%nat -> (0 < ntraj)%nat -> 0 < p_thickness P -> 0 < spot <= p_thickness P ->
  (forall i, 0 < d_l0 D i < 1) -> (forall n i, 0 <= d_u D n i < 1) -> (forall d i n, 0 <= d_rstep D d i n) ->
  valid_params P ntraj -> plain P -> 0 < p_nmedium P <= p_nsample P -> p_boundary P = sphere ->
  exists o mu, calc_scat factorial ang special I = Ok o /\ o_mu o = Some mu /\ 0 <= mu
    /\ (0 < mu -> exists r,
          sphere_workflow factorial ang special I nevents ntraj spot P D u_phi u_theta = Ok (Some r)
          /\ 0 <= o_refl r /\ 0 <= o_trans r /\ o_refl r + o_trans r <= 1
          /\ (full_detection P -> o_refl r + o_trans r = 1)).
Proof.
  intros factorial ang special I n nevents ntraj spot P D up ut SO SU Hf Ha Hu Hn Ht Hth Hs H0 Hd Hst Hv Hpl Hm Hb.
  destruct (workflow_reduces (sphere_run nevents ntraj spot) factorial ang special I n nevents ntraj P D up ut SO SU Hf Ha Hu)
    as (o & mu & Eo & Emu & Hmu & H).
  exists o, mu. split; [exact Eo|]. split; [exact Emu|]. split; [exact Hmu|]. intros Hpos.
  destruct (H Hpos) as (rows & E). unfold sphere_workflow. rewrite E.
  destruct (C103_sphere_run nevents ntraj spot mu (set_muabs P 0) (set_angles D rows)) as (r & Er & A1 & A2 & A3 & A4);
    try assumption; try apply Rle_refl.
  exists r. split; [exact Er|]. split; [exact A1|]. split; [exact A2|]. split; [exact A3|]. intros Hfd. apply A4; [exact Hfd|reflexivity].
Qed.
Print Assumptions C119_sphere.

(** A sample of isotropic scatterers without structure factor scatters, and a
    run of 300 events for 100 trajectories meets all hypotheses. *)
Definition dilute : scat_in :=
  mk_sin [0.1] [RtoC 1.5] (RtoC 1.2) 0.5 0.5 None None None false 0 0.1 3 S_none
    (Some "sphere"%string) None (Some (RtoC 1)) true true.
Definition isotropic (m : list C) (x : list R) (t : R) : R * R := (1, 1).
Lemma dilute_ok : scat_ok (fun _ => 1) dilute 1.2 /\ surroundings dilute 1.2.
Proof.
  pose proof PI2_3_2. unfold scat_ok, surroundings, dilute; cbn. split; [|reflexivity].
  split; [discriminate|]. split; [constructor; [lra|constructor]|]. split; [discriminate|]. split; [discriminate|].
  split; [lra|]. split; [lra|]. split; [lra|]. split; [split; lra|]. split; [discriminate|].
  split; [right; left; reflexivity|exact Logic.I].
Qed.
Lemma dilute_scatters special : exists o mu, calc_scat (fun _ => 1) isotropic special dilute = Ok o
  /\ o_mu o = Some mu /\ 0 < mu.
Proof.
  pose proof PI2_3_2 as HP. destruct dilute_ok as [H1 H2].
  destruct (calc_scat_ok (fun _ => 1) isotropic special dilute 1.2 H1 H2)
    as (o & P & S & xe & rho & Eo & _ & _ & _ & Hr & Hd & _ & Emu & _ & _).
  - cbn. lra.
  - intros. cbn. lra.
  - exists o. eexists. split; [exact Eo|]. split; [exact Emu|].
    assert (Hone : forall t, In t (scat_grid dilute) -> P t = 1 /\ S t = 1).
    { intros t Ht. destruct (Hd t Ht) as [E _]. unfold scat_dcs, differential_cross_section in E.
      cbn in E. injection E as E1 E2. lra. }
    apply Rmult_lt_0_compat; [exact Hr|]. unfold cross_sec. apply Rmult_lt_0_compat.
    { apply Rdiv_lt_0_compat; [lra|]. apply pow_lt, Rdiv_lt_0_compat; cbn; nra. }
    assert (Eg : scat_grid dilute = [0.1; (0.1 + PI) / 2; PI]).
    { unfold scat_grid, linspace, dilute. cbn. f_equal; [|f_equal; [|f_equal]]; lra. }
    rewrite Eg in *. unfold unpol. cbn [trap_int].
    destruct (Hone 0.1) as [-> ->]; [now left|]. destruct (Hone ((0.1 + PI) / 2)) as [-> ->]; [right; now left|].
    rewrite sin_PI. pose proof (sin_gt_0 0.1 ltac:(lra) ltac:(lra)).
    pose proof (sin_gt_0 ((0.1 + PI) / 2) ltac:(lra) ltac:(lra)). nra.
Qed.

Example C119_dark_case : forall run special nevents ntraj P D up ut,
  workflow run (fun _ => 1) (fun _ _ _ => (0, 0)) special dilute nevents ntraj P D up ut = Err ValueError.
Proof.
  intros run special nevents ntraj P D up ut. destruct dilute_ok as [S1 S2].
  apply (C119_dark run (fun _ => 1) (fun _ _ _ => (0, 0)) special dilute 1.2 None); try assumption.
  - cbn. lra.
  - intros. cbn. lra.
  - cbn. lia.
  - reflexivity.
  - intros t _. unfold scat_dcs, differential_cross_section. cbn. repeat f_equal; ring.
Qed.

Example C119_case : forall special, exists oo,
  film_workflow (fun _ => 1) isotropic special dilute 300 100 1 0 (PI / 4) 0 (2 * PI) film_call half_draws
    (fun _ _ => 1 / 2) (fun _ _ => 1 / 3) = Ok oo
  /\ forall r, oo = Some r -> o_refl r + o_trans r = 1.
Proof.
  intros special. destruct dilute_ok as [S1 S2]. destruct (dilute_scatters special) as (o & mu & Eo & Emu & Hmu).
  destruct (C119_film (fun _ => 1) isotropic special dilute 1.2 300 100 1 0 (PI / 4) 0 (2 * PI) film_call half_draws
    (fun _ _ => 1 / 2) (fun _ _ => 1 / 3)) as (o' & mu' & Eo' & Emu' & _ & H); try reflexivity; try assumption; try (cbn; lra); try lia.
  - intros. cbn. lra.
  - intros. lra.
  - intros i. cbn. lra.
  - intros i. cbn. lra.
  - intros k i. apply mod2_half.
  - unfold valid_params, film_call; cbn. repeat split; try lra; discriminate.
  - rewrite Eo in Eo'. injection Eo' as <-. rewrite Emu in Emu'. injection Emu' as <-.
    destruct (H Hmu) as (oo & Eoo & Q). exists oo. split; [exact Eoo|]. intros r Er.
    apply (proj2 (proj2 (proj2 (Q r Er)))); repeat split.
Qed.
