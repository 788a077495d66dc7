(** Absorption cross section: C123. *)
From Coq Require Import Lra Lia Psatz String.
From Verif Require Import Num Spec Spec_scatter Spec_reflection L_num L_trapezoid L_montecarlo2 L_reflection L_sizes M_absorption.
From Coquelicot Require Import Complex.
Open Scope R_scope.

(** The result is independent of the order in which form factors are tested:
    without a form factor nothing is absorbed, whatever the other arguments. *)
Theorem C123_no_form_factor factorial mie_fu mie_multi nlayers diameters n_matrix x wavelen n_particle poly :
  absorption_cross_section factorial mie_fu mie_multi None nlayers diameters n_matrix x wavelen n_particle poly = Ok (Some 0).
Proof. reflexivity. Qed.
Print Assumptions C123_no_form_factor.

(** A homogeneous sphere: Mie's absorption of a particle of radius d/2 with its
    own size parameter 2 pi n r / wavelength; a transparent matrix changes
    nothing in this. *)
Theorem C123_sphere factorial mie_fu mie_multi d ds n_matrix x wavelen n_particle poly :
  absorption_cross_section factorial mie_fu mie_multi (Some "sphere"%string) 1 (d :: ds) n_matrix x wavelen n_particle poly
  = Ok (mie_fu (d / 2) (Cmult (RtoC (PI * d / wavelen)) n_particle) x).
Proof.
  unfold absorption_cross_section, csize. cbn [String.eqb Ascii.eqb Bool.eqb Nat.ltb Nat.leb].
  replace (2 * PI * (d / 2) / wavelen) with (PI * d / wavelen) by (unfold Rdiv; lra).
  reflexivity.
Qed.
Print Assumptions C123_sphere.

(** A multilayer particle never has a negative cross section. *)
Theorem C123_multilayer_nonneg factorial mie_fu mie_multi nlayers d ds n_matrix x wavelen n_particle poly v :
  (1 < nlayers)%nat ->
  absorption_cross_section factorial mie_fu mie_multi (Some "sphere"%string) nlayers (d :: ds) n_matrix x wavelen n_particle poly = Ok (Some v) ->
  0 <= v /\ (forall c, mie_multi (d / 2) = Some c -> v = Rmax c 0).
Proof.
  intros Hn. unfold absorption_cross_section. cbn [String.eqb Ascii.eqb Bool.eqb].
  rewrite (proj2 (Nat.ltb_lt 1 nlayers)) by exact Hn. destruct (mie_multi (d / 2)) as [c|]; [|discriminate].
  destruct (Rltb c 0) eqn:E; intros H; injection H as <-.
  - apply Rltb_true in E. split; [lra|]. intros c' Hc. injection Hc as <-. rewrite Rmax_right; lra.
  - apply Rltb_false in E. split; [exact E|]. intros c' Hc. injection Hc as <-. rewrite Rmax_left; lra.
Qed.
Print Assumptions C123_multilayer_nonneg.
Example C123_multilayer_case :
  absorption_cross_section (fun _ => 1) (fun _ _ _ => None) (fun _ => Some (-3)) (Some "sphere"%string) 2 [1] (RtoC 1) (RtoC 1) 1 (RtoC 1) None = Ok (Some 0).
Proof. unfold absorption_cross_section. cbn. rewrite (proj2 (Rltb_true (-3) 0)) by lra. reflexivity. Qed.

(** Polydisperse systems, distributions that stay above diameter zero: the
    result lies between the smallest and the largest single-particle value,
    weighted with the concentrations; in particular it is not negative when the
    single-particle values are not.  [f s d] is the single-particle value the
    code uses for diameter [d] of species [s].
    Partial: the single-particle value belongs to a particle of one diameter
    with the size parameter of another one (see the next theorem). *)
Lemma abs_grid_eq mean p : 0 < mean -> width p <= 1 / 3 -> abs_grid mean (pdi_t p) = diameter_grid mean (pdi_t p).
Proof.
  intros Hm Hw. destruct (pdi_t_value p ltac:(lra)) as (_ & _ & Es).
  assert (W : 0 < width p) by (unfold width; pose proof (Rmax_r p 1e-5); lra).
  unfold abs_grid, diameter_grid. rewrite Es. replace (3 * mean / / width p) with (3 * width p * mean) by (field; lra).
  rewrite (proj2 (Rltb_false (mean - 3 * width p * mean) 0)) by nra. reflexivity.
Qed.
Lemma get_all_vals (f : R -> num) (u : R -> R) g : (forall d, In d g -> f d = Some (u d)) -> get_all (map f g) = Some (map u g).
Proof.
  intros H. rewrite <- (get_all_somes u g). f_equal. apply map_ext_in. exact H.
Qed.
Definition steady (factorial : R -> R) (s : species) : Prop :=
  0 <= sp_c s /\ 0 < sp_d s /\ width (sp_pdi s) < 1 / 3 /\ 0 < factorial (pdi_t (sp_pdi s)).
Theorem C123_polydisperse_average_partial factorial mie_fu mie_multi diameters n_matrix x wavelen n_particle l lo hi
  (f : species -> R -> R) :
  l <> [] -> (forall s, In s l -> steady factorial s) ->
  (forall s d, In s l -> 0 < d ->
     mie_fu (d / 2) (Cmult (RtoC (PI * sp_d s / wavelen)) n_particle) (Cmult (RtoC (PI * d / wavelen)) n_matrix) = Some (f s d)) ->
  (forall s d, In s l -> 0 < d -> lo <= f s d <= hi) ->
  exists v, absorption_cross_section factorial mie_fu mie_multi (Some "polydisperse"%string) 1 diameters n_matrix x wavelen n_particle (Some l)
              = Ok (Some v)
    /\ lo * total (map sp_c l) <= v <= hi * total (map sp_c l).
Proof.
  intros Hl Hs Hf Hb. unfold absorption_cross_section. cbn [String.eqb Ascii.eqb Bool.eqb Nat.ltb Nat.leb].
  assert (Hone : forall s, In s l -> exists v, abs_species factorial mie_fu wavelen n_particle n_matrix s = Some v
     /\ lo * sp_c s <= v <= hi * sp_c s).
  { intros s Hin. destruct (Hs s Hin) as (C0 & C1 & C2 & C3).
    destruct (grid_ok (sp_d s) (sp_pdi s) C1 ltac:(lra) ltac:(left; lra)) as (G1 & G2 & G3 & G4 & G5).
    destruct (size_dist_ok factorial (sp_d s) (sp_pdi s) C1 ltac:(lra) ltac:(left; lra) C3) as (ws & E1 & E2 & E3 & E4).
    unfold abs_species. rewrite abs_grid_eq by (assumption || lra).
    rewrite E1, get_all_some.
    rewrite (get_all_vals _ (f s)).
    2:{ intros d Hd. rewrite <- (Hf s d Hin (G5 ltac:(lra) d Hd)). unfold csize.
        replace (2 * PI * (sp_d s / 2) / wavelen) with (PI * sp_d s / wavelen) by (unfold Rdiv; lra).
        replace (2 * PI * (d / 2) / wavelen) with (PI * d / wavelen) by (unfold Rdiv; lra). reflexivity. }
    eexists. split; [reflexivity|].
    pose proof (trapezoid_mult_le (f s) ws _ lo hi G1 E3 (eq_trans E2 (eq_sym G3)) (fun d Hd => Hb s d Hin (G5 ltac:(lra) d Hd))) as B.
    rewrite (trapezoid_pts ws) in B by congruence. rewrite E4 in B. nra. }
  assert (Hall : exists v, abs_total (abs_species factorial mie_fu wavelen n_particle n_matrix) l = Some v
     /\ lo * total (map sp_c l) <= v <= hi * total (map sp_c l)).
  { clear - Hone. induction l as [|s l IH]; [exists 0; cbn; split; [reflexivity|lra]|].
    destruct (Hone s (or_introl eq_refl)) as (a & Ea & Ba). destruct IH as (b & Eb & Bb).
    { intros s' Hin. apply Hone. now right. }
    exists (a + b). cbn [abs_total map total]. rewrite Ea, Eb. split; [reflexivity|]. lra. }
  destruct Hall as (v & Ev & Bv). exists v. rewrite Ev. split; [|exact Bv]. destruct l; [contradiction|reflexivity].
Qed.
Print Assumptions C123_polydisperse_average_partial.
Example C123_polydisperse_case :
  exists v, absorption_cross_section (fun _ => 1) (fun _ _ _ => Some 2) (fun _ => None) (Some "polydisperse"%string) 1 [1] (RtoC 1) (RtoC 1) 1 (RtoC 1)
    (Some [mkSp 1 1 (1 / 10)]) = Ok (Some v) /\ v = 2.
Proof.
  destruct (C123_polydisperse_average_partial (fun _ => 1) (fun _ _ _ => Some 2) (fun _ => None) [1] (RtoC 1) (RtoC 1) 1 (RtoC 1)
    [mkSp 1 1 (1 / 10)] 2 2 (fun _ _ => 2)) as (v & E & B).
  - discriminate.
  - intros s [<-|[]]. unfold steady, width. cbn. rewrite Rmax_left by lra. lra.
  - reflexivity.
  - intros; lra.
  - exists v. split; [exact E|]. cbn in B. lra.
Qed.

(** The sizes handed to the Mie solver do not belong to one particle: even a
    solver that is right (here: answers 1) whenever radius and both size
    parameters agree with each other gives 0 for a polydisperse sample,
    because every one of the 50 calls mixes the mean diameter with another
    diameter. *)
Theorem C123_wrong_size_refuted :
  exists (mie_fu : R -> C -> C -> num) factorial l wavelen n_particle n_matrix,
    (forall r, mie_fu r (Cmult (RtoC (2 * PI * r / wavelen)) n_particle) (Cmult (RtoC (2 * PI * r / wavelen)) n_matrix) = Some 1)
    /\ (forall s, In s l -> steady factorial s) /\ total (map sp_c l) = 1
    /\ absorption_cross_section factorial mie_fu (fun _ => None) (Some "polydisperse"%string) 1 [1] n_matrix (RtoC 1) wavelen n_particle (Some l)
       = Ok (Some 0).
Proof.
  exists (fun r xs xm => Some (if Reqb (2 * PI * r) (fst xs) then 1 else 0)), (fun _ => 1), [mkSp 1 1 (1 / 10)], 1, (RtoC 1), (RtoC 1).
  assert (W : width (1 / 10) = 1 / 10) by (unfold width; rewrite Rmax_left; lra).
  assert (Hst : forall s, In s [mkSp 1 1 (1 / 10)] -> steady (fun _ => 1) s).
  { intros s [<-|[]]. unfold steady. cbn. rewrite W. lra. }
  split; [|split; [exact Hst|split]].
  - intros r. f_equal. cbn [fst Cmult RtoC snd]. rewrite (proj2 (Reqb_true _ _)); [reflexivity|]. field.
  - cbn. ring.
  - unfold absorption_cross_section. cbn [String.eqb Ascii.eqb Bool.eqb Nat.ltb Nat.leb abs_total]. f_equal.
    unfold abs_species. cbn [sp_d sp_c sp_pdi]. rewrite abs_grid_eq by (rewrite ?W; lra).
    destruct (grid_ok 1 (1 / 10) ltac:(lra) ltac:(rewrite W; lra) ltac:(left; rewrite W; lra)) as (G1 & G2 & G3 & G4 & G5).
    destruct (size_dist_ok (fun _ => 1) 1 (1 / 10) ltac:(lra) ltac:(rewrite W; lra) ltac:(left; rewrite W; lra) ltac:(lra)) as (ws & E1 & E2 & E3 & E4).
    rewrite E1, get_all_some. rewrite (get_all_vals _ (fun _ => 0)).
    2:{ intros d Hd. f_equal. unfold csize. cbn [fst Cmult RtoC snd].
        destruct (Reqb _ _) eqn:E; [|reflexivity]. exfalso. apply Reqb_true in E.
        assert (Hd1 : d = 1) by (pose proof PI_RGT_0; nra). subst d. clear - Hd W.
        destruct (pdi_t_value (1 / 10) ltac:(rewrite W; lra)) as (_ & _ & Es). rewrite W in Es.
        unfold diameter_grid in Hd. rewrite Es in Hd.
        rewrite (proj2 (Rltb_false (1 - 3 * 1 / / (1 / 10)) 0)) in Hd by lra.
        unfold linspace in Hd. apply in_map_iff in Hd as (i & Hi & _).
        assert (E49 : INR (50 - 1) = 49) by (rewrite INR_IZR_INZ; reflexivity). rewrite E49 in Hi.
        assert (H2 : 2 * INR i = 49) by lra.
        assert (H3 : INR (2 * i) = INR 49) by (rewrite mult_INR, (INR_IZR_INZ 49); cbn [INR]; cbn; lra).
        apply INR_eq in H3. lia. }
    cbn [nmap2]. f_equal.
    assert (Hz : trapezoid (map2 Rmult (map (fun _ => 0) (diameter_grid 1 (pdi_t (1 / 10)))) ws) (diameter_grid 1 (pdi_t (1 / 10))) = 0).
    { pose proof (trapezoid_mult_le (fun _ => 0) ws _ 0 0 G1 E3 (eq_trans E2 (eq_sym G3)) ltac:(intros; lra)) as B. lra. }
    rewrite Hz. ring.
Qed.
Print Assumptions C123_wrong_size_refuted.

(** Broad distributions (polydispersity above 1/3) include a particle of
    diameter 0, for which Mie theory has no answer, so the sum has none. *)
Theorem C123_broad_refuted factorial mie_fu mie_multi diameters n_matrix x wavelen n_particle s l :
  (forall xs xm, mie_fu 0 xs xm = None) -> 0 < sp_d s -> 1 / 3 < width (sp_pdi s) <= 1 -> In s l ->
  absorption_cross_section factorial mie_fu mie_multi (Some "polydisperse"%string) 1 diameters n_matrix x wavelen n_particle (Some l)
  = Ok None.
Proof.
  intros Hm Hd [Hw1 Hw2] Hin.
  assert (E : abs_species factorial mie_fu wavelen n_particle n_matrix s = None).
  { unfold abs_species. destruct (pdi_t_value (sp_pdi s) Hw2) as (_ & _ & Es).
    set (g := abs_grid (sp_d s) (pdi_t (sp_pdi s))).
    assert (H0 : hd 1 g = 0).
    { unfold g, abs_grid. rewrite Es. replace (3 * sp_d s / / width (sp_pdi s)) with (3 * width (sp_pdi s) * sp_d s) by (field; lra).
      rewrite (proj2 (Rltb_true _ 0)) by nra. unfold linspace. cbn [seq map hd INR]. ring. }
    assert (Hg : exists t, g = 0 :: t).
    { destruct g as [|a t]; cbn in H0; [lra|]. subst a. eauto. }
    destruct Hg as [t ->]. cbn [map]. replace (0 / 2) with 0 by (unfold Rdiv; ring). rewrite Hm.
    replace (get_all (None :: _)) with (@None (list R)) by reflexivity.
    destruct (get_all (size_distribution _ _ _ _)); reflexivity. }
  unfold absorption_cross_section. cbn [String.eqb Ascii.eqb Bool.eqb Nat.ltb Nat.leb].
  assert (Ht : abs_total (abs_species factorial mie_fu wavelen n_particle n_matrix) l = None).
  { clear - E Hin. induction l as [|a l IH]; [destruct Hin|]. cbn [abs_total]. destruct Hin as [->|Hin].
    - rewrite E. reflexivity.
    - rewrite IH by exact Hin. destruct (abs_species _ _ _ _ _ a); reflexivity. }
  rewrite Ht. destruct l; [destruct Hin|reflexivity].
Qed.
Print Assumptions C123_broad_refuted.
Example C123_broad_case : 1 / 3 < width (1 / 2) <= 1.
Proof. unfold width. rewrite Rmax_left; lra. Qed.

(** A form factor name the function does not know: 0 for a transparent matrix,
    UnboundLocalError for an absorbing one - never a message about the name. *)
Theorem C123_unknown_form factorial mie_fu mie_multi name nlayers diameters n_matrix x wavelen n_particle poly :
  name <> "polydisperse"%string -> name <> "sphere"%string ->
  absorption_cross_section factorial mie_fu mie_multi (Some name) nlayers diameters n_matrix x wavelen n_particle poly
  = if Reqb (snd n_matrix) 0 then Ok (Some 0) else Err NameError.
Proof.
  intros H1 H2. unfold absorption_cross_section.
  rewrite (proj2 (String.eqb_neq name "polydisperse")) by exact H1. rewrite (proj2 (String.eqb_neq name "sphere")) by exact H2.
  destruct (Reqb (snd n_matrix) 0) eqn:E.
  - apply Reqb_true in E. rewrite E, Rabs_R0, (proj2 (Reqb_true 0 0)) by reflexivity. reflexivity.
  - apply Reqb_false in E. rewrite (proj2 (Reqb_false (Rabs (snd n_matrix)) 0)) by now apply Rabs_no_R0. reflexivity.
Qed.
Print Assumptions C123_unknown_form.
Example C123_unknown_form_case : 
  absorption_cross_section (fun _ => 1) (fun _ _ _ => None) (fun _ => None) (Some "ellipsoid"%string) 1 [1] (1, 1 / 100) (RtoC 1) 1 (RtoC 1) None = Err NameError.
Proof. rewrite C123_unknown_form by discriminate. cbn [snd]. rewrite (proj2 (Reqb_false _ _)) by lra. reflexivity. Qed.

(** Missing or contradictory arguments of a polydisperse system. *)
Theorem C123_polydisperse_arguments factorial mie_fu mie_multi nlayers diameters n_matrix x wavelen n_particle poly :
  (poly = None \/ (1 < nlayers)%nat) ->
  absorption_cross_section factorial mie_fu mie_multi (Some "polydisperse"%string) nlayers diameters n_matrix x wavelen n_particle poly
  = Err ValueError.
Proof.
  unfold absorption_cross_section. cbn [String.eqb Ascii.eqb Bool.eqb]. intros [->|H]; [reflexivity|].
  destruct poly; [|reflexivity]. rewrite (proj2 (Nat.ltb_lt 1 nlayers)) by exact H. reflexivity.
Qed.
Print Assumptions C123_polydisperse_arguments.
