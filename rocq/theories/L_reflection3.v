(** More about the single-scattering reflectance: bounds, detector range,
    number density, layers. *)
From Verif Require Import Num Spec Spec_scatter L_num L_trapezoid M_model M_montecarlo M_reflection Spec_reflection
  L_montecarlo2 L_fresnel L_slots L_reflection L_reflection2.
From Coq Require Import Lia Lra.
Open Scope R_scope.

(** ** Polarisations *)

Lemma pol_law A P S : geometry_ok A -> nonneg_cs P S -> 0 < sigma_ext A P S ->
  (forall L, a_thickness A = Some L -> 0 <= L) ->
  exists o p s, reflection_real A (dcs_of P S) = Ok o
    /\ r_par o = Some p /\ r_perp o = Some s /\ r_unpol o = Some ((p + s) / 2)
    /\ fst (fres A) <= p /\ snd (fres A) <= s
    /\ p <= fst (fres A) + (1 - fst (fres A)) * det_cs A P (Tpar A) / sigma_ext A P S
    /\ s <= snd (fres A) + (1 - snd (fres A)) * det_cs A S (Tperp A) / sigma_ext A P S.
Proof.
  intros G HN Hx HL.
  assert (Hne : sigma_ext A P S <> 0) by lra.
  pose proof (scat_nonneg A P S G HN) as Hs0.
  destruct (fres_range A G) as [F1 F2]. unfold fraction in F1, F2.
  assert (Dp : 0 <= det_cs A P (Tpar A)).
  { apply det_nonneg; [exact G|intros t Ht; apply (HN t Ht)|intros t Ht; apply (T_range A t G Ht)]. }
  assert (Ds : 0 <= det_cs A S (Tperp A)).
  { apply det_nonneg; [exact G|intros t Ht; apply (HN t Ht)|intros t Ht; apply (T_range A t G Ht)]. }
  assert (Hi : 0 < / sigma_ext A P S) by now apply Rinv_0_lt_compat.
  assert (Q : forall r d, 0 <= r <= 1 -> 0 <= d -> exists v, refl_pol A P S r d = Some v
      /\ r <= v <= r + (1 - r) * d / sigma_ext A P S).
  { intros r d Hr Hd.
    assert (B : 0 <= (1 - r) * d / sigma_ext A P S)
      by (apply Rmult_le_pos; [apply Rmult_le_pos; lra|lra]).
    destruct (a_thickness A) as [L|] eqn:E.
    - assert (EA : A = with_thickness A (Some L)) by (destruct A; cbn in *; now rewrite E).
      rewrite EA, refl_pol_thick, <- EA by assumption.
      eexists. split; [reflexivity|].
      assert (Hrho : 0 < a_rho A) by apply G.
      pose proof (HL L eq_refl) as HL0.
      assert (X : 0 <= 1 - exp (- (a_rho A * sigma_ext A P S * L)) <= 1).
      { pose proof (exp_pos (- (a_rho A * sigma_ext A P S * L))).
        assert (exp (- (a_rho A * sigma_ext A P S * L)) <= 1).
        { rewrite <- exp_0. destruct (Req_dec (a_rho A * sigma_ext A P S * L) 0) as [->|Hn].
          - rewrite Ropp_0. lra.
          - left. apply exp_increasing.
            assert (0 <= a_rho A * sigma_ext A P S * L) by (apply Rmult_le_pos; [nra|assumption]). lra. }
        lra. }
      assert (Y : 0 <= sigma_scat A P S / sigma_ext A P S <= 1).
      { split; [apply Rmult_le_pos; lra|]. apply (Rmult_le_reg_r (sigma_ext A P S)); [exact Hx|].
        unfold Rdiv. rewrite Rmult_assoc, Rinv_l by exact Hne.
        unfold sigma_ext. assert (0 <= a_cabs A) by apply G. lra. }
      unfold amp. set (b := (1 - r) * d / sigma_ext A P S) in *.
      set (y := sigma_scat A P S / sigma_ext A P S) in *.
      set (x := 1 - exp (- (a_rho A * sigma_ext A P S * L))) in *.
      assert (0 <= b * y <= b) by nra. nra.
    - assert (EA : A = with_thickness A None) by (destruct A; cbn in *; now rewrite E).
      rewrite EA, refl_pol_infinite, <- EA by assumption.
      eexists. split; [reflexivity|]. lra. }
  destruct (Q (fst (fres A)) _ F1 Dp) as (p & Ep & Bp).
  destruct (Q (snd (fres A)) _ F2 Ds) as (s & Es & Bs).
  eexists _, p, s. split; [apply geometry_value; exact G|].
  cbn [r_par r_perp r_unpol]. rewrite Ep, Es. cbn [nmap2].
  repeat split; try reflexivity; lra.
Qed.

(** At normal incidence, with a quadrature that detects no more than all the
    scattered light, the unpolarised reflectance is a fraction. *)
Lemma normal_fraction A P S : geometry_ok A -> nonneg_cs P S -> 0 < sigma_ext A P S ->
  (forall L, a_thickness A = Some L -> 0 <= L) -> a_inc A = 0 ->
  cross_sec (wavenumber A) (azimuth A) (detected_angles A) (unpol P S) <= sigma_scat A P S ->
  exists o u, reflection_real A (dcs_of P S) = Ok o /\ r_unpol o = Some u /\ 0 <= u <= 1.
Proof.
  intros G HN Hx HL Hi Hd.
  destruct (pol_law A P S G HN Hx HL) as (o & p & s & Ho & Hp & Hs & Hu & B1 & B2 & B3 & B4).
  exists o, ((p + s) / 2). split; [exact Ho|]. split; [exact Hu|].
  destruct (fres_range A G) as [F1 F2]. unfold fraction in F1, F2.
  split; [lra|].
  assert (E : fst (fres A) = snd (fres A)).
  { unfold fres. rewrite Hi. destruct G as (H1 & H2 & _).
    pose proof (fresnel_normal (a_nmedium A) (a_nsample A) H1 H2) as F.
    rewrite fresnel_reflection_ok in F by (intros t [<-|[]]; pose proof PI_RGT_0; lra).
    cbn in F. injection F as E1 E2. rewrite E1, E2. reflexivity. }
  set (r := fst (fres A)) in *. rewrite <- E in *.
  pose proof (k_pos A G) as K.
  assert (Az : 0 <= azimuth A).
  { unfold azimuth. destruct G as (_ & _ & _ & _ & _ & _ & _ & _ & Hp' & _). lra. }
  assert (D : det_cs A P (Tpar A) + det_cs A S (Tperp A)
              <= 2 * cross_sec (wavenumber A) (azimuth A) (detected_angles A) (unpol P S)).
  { rewrite !det_sigma by exact G. rewrite <- sigma_plus, <- sigma_scale.
    apply sigma_le; [exact K|exact Az|now apply detected_asc| |].
    - intros t Ht. pose proof (detected_in A t G Ht). pose proof PI_RGT_0. lra.
    - intros t Ht. pose proof (detected_in A t G Ht). pose proof PI_RGT_0.
      destruct (T_range A t G Ht) as [T1 T2]. destruct (HN t ltac:(lra)) as [N1 N2].
      unfold unpol. nra. }
  assert (Hinv : 0 < / sigma_ext A P S) by now apply Rinv_0_lt_compat.
  assert (Z : (det_cs A P (Tpar A) + det_cs A S (Tperp A)) / sigma_ext A P S <= 2).
  { apply (Rmult_le_reg_r (sigma_ext A P S)); [exact Hx|].
    unfold Rdiv. rewrite Rmult_assoc, Rinv_l by lra.
    unfold sigma_ext. assert (0 <= a_cabs A) by apply G. lra. }
  replace ((1 - r) * det_cs A P (Tpar A) / sigma_ext A P S) with ((1 - r) * (det_cs A P (Tpar A) / sigma_ext A P S)) in B3 by (field; lra).
  replace ((1 - r) * det_cs A S (Tperp A) / sigma_ext A P S) with ((1 - r) * (det_cs A S (Tperp A) / sigma_ext A P S)) in B4 by (field; lra).
  replace ((det_cs A P (Tpar A) + det_cs A S (Tperp A)) / sigma_ext A P S)
    with (det_cs A P (Tpar A) / sigma_ext A P S + det_cs A S (Tperp A) / sigma_ext A P S) in Z by (field; lra).
  nra.
Qed.

(** ** The detector range *)


Lemma refracted_alias nm ns t : refracted_theta nm ns (PI - t) = refracted_theta nm ns t.
Proof.
  unfold refracted_theta. replace (sin (PI - (PI - t))) with (sin (PI - t)); [reflexivity|].
  rewrite !sin_PI_x. reflexivity.
Qed.

Lemma theta_alias A dcs lo hi lo' hi' : (lo' = lo \/ lo' = PI - lo) -> (hi' = hi \/ hi' = PI - hi) ->
  reflection_real (with_theta A lo' hi') dcs = reflection_real (with_theta A lo hi) dcs.
Proof.
  intros H1 H2.
  assert (E : detected_angles (with_theta A lo' hi') = detected_angles (with_theta A lo hi)).
  { unfold detected_angles. cbn [a_nmedium a_nsample a_tmin a_tmax a_num with_theta].
    destruct H1 as [->| ->]; destruct H2 as [->| ->]; rewrite ?refracted_alias; reflexivity. }
  unfold reflection_real, reflection_core. rewrite E. reflexivity.
Qed.

Lemma refracted_snell nm ns t : 0 < nm -> 0 < ns -> PI / 2 <= t <= PI ->
  let inside := refracted_theta nm ns t in
  PI / 2 <= inside <= PI /\
  ((sin (PI - t) * nm < ns -> snell ns (PI - inside) nm (PI - t)) /\
   (ns <= sin (PI - t) * nm -> inside = PI / 2)).
Proof.
  intros Hm Hs Ht inside. pose proof PI_RGT_0.
  split; [apply refracted_range; [assumption|assumption|lra]|].
  unfold inside, refracted_theta. rewrite (Rabs_pos_eq ns) by lra.
  assert (S0 : 0 <= sin (PI - t)) by (apply sin_ge_0; lra).
  split; intros H1.
  - assert (L : sin (PI - t) * nm / ns < 1).
    { apply (Rmult_lt_reg_r ns); [exact Hs|]. unfold Rdiv. rewrite Rmult_assoc, Rinv_l by lra. lra. }
    assert (L0 : 0 <= sin (PI - t) * nm / ns).
    { apply Rmult_le_pos; [nra|]. left. now apply Rinv_0_lt_compat. }
    rewrite (proj2 (Rleb_false 1 _)) by exact L. unfold snell.
    replace (PI - (PI - asin (sin (PI - t) * nm / ns))) with (asin (sin (PI - t) * nm / ns)) by ring.
    rewrite sin_asin by lra. field. lra.
  - rewrite (proj2 (Rleb_true 1 _)); [reflexivity|].
    apply (Rmult_le_reg_r ns); [exact Hs|]. unfold Rdiv. rewrite Rmult_assoc, Rinv_l by lra. lra.
Qed.

(** An empty detector range leaves the specular reflection. *)
Lemma empty_aperture A P S : geometry_ok A -> nonneg_cs P S -> 0 < sigma_ext A P S ->
  a_tmin A = a_tmax A \/ a_pmin A = a_pmax A ->
  exists o, reflection_real A (dcs_of P S) = Ok o
    /\ r_par o = Some (fst (fres A)) /\ r_perp o = Some (snd (fres A)).
Proof.
  intros G HN Hx Hr.
  assert (D0 : forall Q T, det_cs A Q T = 0).
  { intros Q T. unfold det_cs. destruct Hr as [Ht|Hp].
    - rewrite (trap_int_flat _ _ (refracted_theta (a_nmedium A) (a_nsample A) (a_tmax A))); [ring|].
      intros t Hin. unfold detected_angles in Hin. rewrite Ht in Hin. now apply linspace_flat in Hin.
    - rewrite Hp. ring. }
  assert (Z : forall r, refl_pol A P S r 0 = Some r).
  { intros r. unfold refl_pol, thick_factor. unfold cext. rewrite cscat_sigma by exact G.
    fold (sigma_ext A P S). unfold ndiv. rewrite (proj2 (Reqb_false _ 0)) by lra.
    destruct (a_thickness A); cbn [nbind]; f_equal; field; lra. }
  eexists. split; [apply geometry_value; exact G|]. cbn [r_par r_perp].
  rewrite !D0, !Z. auto.
Qed.

(** The scattered part is proportional to the azimuth range. *)

Lemma azimuth_law A P S : geometry_ok A -> nonneg_cs P S -> 0 < sigma_ext A P S ->
  exists cp cs, forall lo hi, lo <= hi ->
    exists o, reflection_real (with_phi A lo hi) (dcs_of P S) = Ok o
      /\ r_par o = Some (fst (fres A) + cp * (hi - lo))
      /\ r_perp o = Some (snd (fres A) + cs * (hi - lo)).
Proof.
  intros G HN Hx.
  set (f := match a_thickness A with
            | None => 1
            | Some L => (1 - exp (- a_rho A * sigma_ext A P S * L)) * sigma_scat A P S / sigma_ext A P S end).
  set (dp := trap_int (fun t => P t * (Tpar A t / k2_of A) * sin t) (detected_angles A)).
  set (ds := trap_int (fun t => S t * (Tperp A t / k2_of A) * sin t) (detected_angles A)).
  exists ((1 - fst (fres A)) * dp / sigma_ext A P S * f), ((1 - snd (fres A)) * ds / sigma_ext A P S * f).
  intros lo hi Hlh.
  assert (G' : geometry_ok (with_phi A lo hi)).
  { unfold geometry_ok, with_phi in *. cbn. tauto. }
  eexists. split; [apply geometry_value; exact G'|]. cbn [r_par r_perp].
  change (fres (with_phi A lo hi)) with (fres A).
  change (det_cs (with_phi A lo hi) P (Tpar (with_phi A lo hi))) with ((hi - lo) * dp).
  change (det_cs (with_phi A lo hi) S (Tperp (with_phi A lo hi))) with ((hi - lo) * ds).
  assert (Z : forall r d, refl_pol (with_phi A lo hi) P S r d = Some (r + (1 - r) * d / sigma_ext A P S * f)).
  { intros r d. unfold refl_pol, thick_factor. unfold cext. rewrite cscat_sigma by exact G'.
    change (sigma_scat (with_phi A lo hi) P S) with (sigma_scat A P S).
    change (a_cabs (with_phi A lo hi)) with (a_cabs A).
    change (a_rho (with_phi A lo hi)) with (a_rho A).
    change (a_thickness (with_phi A lo hi)) with (a_thickness A).
    fold (sigma_ext A P S). unfold ndiv, f. rewrite (proj2 (Reqb_false _ 0)) by lra.
    destruct (a_thickness A); cbn [nbind]; f_equal; field; lra. }
  rewrite !Z. split; f_equal; field; lra.
Qed.

(** ** Number density *)

Lemma rho_mono vf r : 0 < Rmax_list r -> number_density vf (Rmax_list r) * sphere_volume (Rmax_list r) = vf.
Proof.
  intros H. unfold number_density, sphere_volume. pose proof PI_RGT_0. field. split; lra.
Qed.

Lemma rho_binary vf r r2 c0 c1 : 0 < c0 -> 0 < c1 -> c0 + c1 = 1 ->
  0 < Rmax_list r -> 0 < Rmax_list r2 ->
  reflection_rho vf r r2 (Some (c0, c1))
  * (c0 * sphere_volume (Rmax_list r) + c1 * sphere_volume (Rmax_list r2)) = vf.
Proof.
  intros H0 H1 Hs Hr Hr2. unfold reflection_rho, sphere_volume.
  rewrite (proj2 (Reqb_false c0 0)), (proj2 (Reqb_false c1 0)) by lra. cbn [orb].
  set (a := Rmax_list r ^ 3). set (b := Rmax_list r2 ^ 3).
  assert (Ha : 0 < a) by now apply pow_lt. assert (Hb : 0 < b) by now apply pow_lt.
  assert (Hn : 0 < a * c0 + b * c1) by nra. pose proof PI_RGT_0.
  replace c1 with (1 - c0) in * by lra.
  field. repeat split; try lra; nra.
Qed.

(** ** Layers *)

Lemma layers_sum vf r_out prev rs : r_out <> 0 ->
  total (layer_fractions vf r_out prev rs) = (last rs prev ^ 3 - prev ^ 3) / r_out ^ 3 * vf.
Proof.
  intros H. revert prev. induction rs as [|r rs IH]; intros prev.
  - cbn [layer_fractions total last]. field. exact H.
  - cbn [layer_fractions total]. rewrite IH.
    destruct rs as [|r' rs'].
    + cbn [last]. field. exact H.
    + change (last (r :: r' :: rs') prev) with (last (r' :: rs') prev).
      replace (last (r' :: rs') prev) with (last (r' :: rs') r); [field; exact H|].
      clear. revert r'. induction rs' as [|x l IH]; intros r'; [reflexivity|].
      change (last (r' :: x :: l) r) with (last (x :: l) r).
      change (last (r' :: x :: l) prev) with (last (x :: l) prev). apply IH.
Qed.

Lemma last_default {A} (l : list A) d d' : l <> [] -> last l d = last l d'.
Proof.
  induction l as [|x [|y l] IH]; intros H; [congruence|reflexivity|].
  change (last (x :: y :: l) d) with (last (y :: l) d).
  change (last (x :: y :: l) d') with (last (y :: l) d'). apply IH. discriminate.
Qed.

Lemma vf_array_sum vf rs : rs <> [] -> last rs 0 <> 0 -> total (vf_array vf rs) = vf.
Proof.
  intros Hn Hl. unfold vf_array. rewrite layers_sum by exact Hl. field. exact Hl.
Qed.

Lemma layers_nth vf r_out prev rs i : (i < length rs)%nat ->
  nth i (layer_fractions vf r_out prev rs) 0
  = (nth i rs 0 ^ 3 - (match i with O => prev | S j => nth j rs 0 end) ^ 3) / r_out ^ 3 * vf.
Proof.
  revert prev i. induction rs as [|r rs IH]; intros prev i Hi; cbn [length] in Hi; [lia|].
  destruct i as [|i]; [reflexivity|].
  cbn [layer_fractions nth]. rewrite IH by lia. destruct i; reflexivity.
Qed.

Lemma layers_length vf r_out prev rs : length (layer_fractions vf r_out prev rs) = length rs.
Proof. revert prev. induction rs as [|r rs IH]; intros prev; cbn; [reflexivity|now rewrite IH]. Qed.
