(** Absorbing samples: C117, C118. *)
From Coq Require Import Lra Lia Psatz.
From Verif Require Import Num Spec Spec_scatter Spec_optics Spec_reflection Spec_absorbing L_num M_model
  M_structure M_refractive_index M_reflection M_absorbing L_fresnel L_fresnel_cplx L_reflection L_reflection2
  L_reflection4 L_absorbing.
From Coquelicot Require Import Complex.
Open Scope R_scope.

(** ** C117: Fresnel coefficients of absorbing media *)

(** With real indices given as complex numbers, the coefficients are those of
    the real calculation, and angles past pi/2 are rejected alike. *)
Theorem C117_real_indices : forall casin n1 n2 theta, 0 < n1 -> 0 < n2 ->
  (forall x, 0 < x < 1 -> casin (RtoC x) = RtoC (asin x)) ->
  (forall t, In t theta -> - (PI / 2) < t /\ t <> PI / 2) ->
  fresnel_cplx casin (RtoC n1) (RtoC n2) theta
  = bind (fresnel_reflection n1 n2 theta) (fun r => Ok (map Some (fst r), map Some (snd r))).
Proof.
  intros casin n1 n2 theta H1 H2 Hc Ht. unfold fresnel_cplx, fresnel_reflection.
  destruct (existsb (fun t => Rltb (PI / 2) t) theta) eqn:E; [reflexivity|].
  cbn [bind fst snd]. rewrite !map_map. f_equal. f_equal; apply map_ext_in; intros t Hi;
    (assert (Hl : ~ PI / 2 < t); [intros Hl; apply Bool.not_true_iff_false in E; apply E, existsb_exists; exists t; split; [exact Hi|now apply Rltb_true]|]);
    destruct (Ht t Hi) as [Hl1 Hl2]; apply Rnot_lt_le in Hl; destruct Hl as [Hl|Hl]; try contradiction;
    rewrite (cplx_is_real casin n1 n2 t H1 H2 (conj Hl1 Hl) Hc); reflexivity.
Qed.
Print Assumptions C117_real_indices.

(** Light in an absorbing medium, at a boundary to a transparent one: both
    reflectances are fractions. *)
Theorem C117_exit_fractions : forall casin m n theta, 0 < m -> 0 < fst n -> 0 < snd n -> - (PI / 2) <= theta <= PI / 2 ->
  exists rp rs, fresnel_cplx casin n (RtoC m) [theta] = Ok ([Some rp], [Some rs])
    /\ 0 <= rp <= 1 /\ 0 <= rs <= 1.
Proof.
  intros casin m [a b] theta Hm Ha Hb Ht.
  destruct (exit_fractions casin m a b theta Hm Ha Hb Ht) as (rp & rs & E & H1 & H2).
  exists rp, rs. split; [|split; assumption]. unfold fresnel_cplx. cbn [existsb].
  rewrite (proj2 (Rltb_false _ _)) by lra. cbn [orb map]. rewrite E. reflexivity.
Qed.
Print Assumptions C117_exit_fractions.

(** From a transparent medium into an absorbing one the perpendicular
    reflectance is a fraction, and so is the parallel one if the imaginary part
    of the index is at most the real part. *)
Theorem C117_entrance_fractions_partial : forall casin m n theta, 0 < m -> 0 < fst n -> 0 < snd n -> - (PI / 2) <= theta <= PI / 2 ->
  exists rp rs, fresnel_cplx casin (RtoC m) n [theta] = Ok ([Some rp], [Some rs])
    /\ 0 <= rp /\ (snd n <= fst n -> rp <= 1) /\ 0 <= rs <= 1.
Proof.
  intros casin m [a b] theta Hm Ha Hb Ht.
  destruct (entrance_fractions casin m a b theta Hm Ha Hb Ht) as (rp & rs & E & H1 & H2).
  exists rp, rs. split; [|split; assumption]. unfold fresnel_cplx. cbn [existsb].
  rewrite (proj2 (Rltb_false _ _)) by lra. cbn [orb map]. rewrite E. reflexivity.
Qed.
Print Assumptions C117_entrance_fractions_partial.

(** That condition is sharp: for a denser absorbing medium (real part at least
    that of the first medium) the parallel reflectance is above 1 at every
    angle as soon as the imaginary part exceeds the real part. *)
Theorem C117_parallel_above_one_refuted : forall casin m n theta, 0 < m -> m <= fst n -> 0 <= snd n ->
  - (PI / 2) < theta < PI / 2 ->
  exists rp, fst (fresnel_cplx1 casin (RtoC m) n theta) = Some rp /\ (1 < rp <-> fst n < snd n).
Proof.
  intros casin m n theta H1 H2 H3 Ht.
  destruct (par_fraction_iff casin m n theta H1 H2 H3 Ht) as (r & E & _ & Hi).
  exists r. split; [exact E|]. split; intros H.
  - apply Rnot_le_lt. intros Hn. apply Hi in Hn. lra.
  - apply Rnot_le_lt. intros Hn. apply Hi in Hn. lra.
Qed.
Print Assumptions C117_parallel_above_one_refuted.

(** At normal incidence the two polarisations are the same, so the two
    reflectances should be equal, and equal to Fresnel's; for every absorbing
    denser medium the code's values lie on either side of it. *)
Theorem C117_normal_incidence_refuted : forall casin m n, 0 < m -> m <= fst n -> 0 < snd n ->
  exists rp rs, fresnel_cplx casin (RtoC m) n [0] = Ok ([Some rp], [Some rs])
    /\ rs < normal_true m n < rp.
Proof.
  intros casin m n H1 H2 H3.
  destruct (normal_bracket casin m n H1 H2 H3) as (rp & rs & E & H).
  exists rp, rs. split; [|exact H]. unfold fresnel_cplx. cbn [existsb]. pose proof PI_RGT_0.
  rewrite (proj2 (Rltb_false _ _)) by lra. cbn [orb map]. rewrite E. reflexivity.
Qed.
Print Assumptions C117_normal_incidence_refuted.

Example C117_case : exists rp rs, fresnel_cplx (fun z => z) (RtoC 1) (3 / 2, 1 / 100) [0] = Ok ([Some rp], [Some rs])
  /\ rs < rp <= 1.
Proof.
  destruct (C117_normal_incidence_refuted (fun z => z) 1 (3 / 2, 1 / 100)) as (rp & rs & E & H); cbn [fst snd] in *; try lra.
  pose proof PI_RGT_0.
  destruct (C117_entrance_fractions_partial (fun z => z) 1 (3 / 2, 1 / 100) 0) as (rp' & rs' & E' & H1 & H2 & H3); cbn [fst snd] in *; try lra.
  rewrite E in E'. injection E' as <- <-. exists rp, rs. split; [exact E|]. split; [lra|]. apply H2. lra.
Qed.

(** ** C118: reflectance of absorbing samples *)

Lemma to_absorbing fsolve factorial casin mie_ang mie_cabs integ dcs I n : absorbing_sample fsolve I n ->
  reflection_any fsolve factorial casin mie_ang mie_cabs integ dcs I
  = reflection_absorbing casin (integ n) n (surfaces I) (absorbing_args I n) (dcs n).
Proof.
  intros (H1 & (ne & H2) & Ha & Hb). unfold reflection_any, reflection.
  rewrite H1, Nat.eqb_refl. cbn [negb]. rewrite H2. cbn [bind].
  rewrite (proj2 (Reqb_false _ _)) by lra. reflexivity.
Qed.

Lemma in_thickness_absorbing fsolve I n th : absorbing_sample fsolve I n -> absorbing_sample fsolve (in_thickness I th) n.
Proof. exact (fun H => H). Qed.

Lemma weighted_nonneg parts f : (forall p, In p parts -> 0 <= fst p) -> (forall d, 0 <= f d) -> 0 <= weighted parts f.
Proof.
  intros H Hf. unfold weighted. induction parts as [|p parts IH]; cbn; [lra|].
  apply Rplus_le_le_0_compat; [apply Rmult_le_pos; [apply H; now left|apply Hf]|].
  apply IH. intros; apply H; now right.
Qed.

Lemma total_nonneg integ parts A (P S : R -> R) : nonneg_integrator integ -> geometry_ok A ->
  (forall p, In p parts -> 0 <= fst p) -> (forall t, In t (total_angles A) -> 0 <= P t /\ 0 <= S t) ->
  0 <= total_abs integ parts A P S.
Proof.
  intros Hi G Hp Hn. apply weighted_nonneg; [exact Hp|]. intros d. pose proof PI_RGT_0.
  apply Hi; [| |lra]; apply Forall_map, Forall_forall; intros t Ht; apply Hn, Ht.
Qed.
Lemma det_nonneg casin n integ parts A (P S : R -> R) : nonneg_integrator integ -> geometry_ok A ->
  0 < fst n -> 0 < snd n ->
  (forall p, In p parts -> 0 <= fst p) -> (forall t, In t (detected_angles A) -> 0 <= P t /\ 0 <= S t) ->
  0 <= detp_abs casin n integ parts A P S /\ 0 <= dets_abs casin n integ parts A P S.
Proof.
  intros Hi G Ha Hb Hp Hn. pose proof G as (Gm & _ & _ & _ & _ & _ & _ & _ & Gp & _).
  assert (F1 : Forall (fun x => 0 <= x) (map (fun t => P t * Tp casin n (a_nmedium A) t) (detected_angles A))).
  { apply Forall_map, Forall_forall. intros t Ht.
    destruct (T_abs casin n (a_nmedium A) t Gm Ha Hb (detected_in A t G Ht)) as (_ & H1 & H2).
    apply Rmult_le_pos; [apply Hn, Ht|lra]. }
  assert (F2 : Forall (fun x => 0 <= x) (map (fun t => S t * Ts casin n (a_nmedium A) t) (detected_angles A))).
  { apply Forall_map, Forall_forall. intros t Ht.
    destruct (T_abs casin n (a_nmedium A) t Gm Ha Hb (detected_in A t G Ht)) as (_ & H1 & H2).
    apply Rmult_le_pos; [apply Hn, Ht|lra]. }
  split; apply weighted_nonneg; try exact Hp; intros d;
    destruct (Hi _ _ d (detected_angles A) _ _ F1 F2 Gp) as (_ & H1 & H2); assumption.
Qed.

(** The whole dependence on thickness.  [ks] is the scattering coefficient rho *
    sigma_scat, [ka] = 4 pi Im(n) / wavelength: the light penetrates with
    exp(-(ks + ka) L); a thickness of None gives (ks+ka)/ks times the deep limit
    of the diffuse part.  Below, rp and rs are the specular reflectances of the
    front surface. *)
Theorem C118_thickness_law : forall fsolve factorial casin mie_ang mie_cabs integ dcs I n (P S : R -> R) rp rs,
  absorbing_sample fsolve I n ->
  let A := absorbing_args I n in
  geometry_ok A -> gives A (dcs n) P S -> nonneg_integrator (integ n) ->
  (forall p, In p (surfaces I) -> 0 <= fst p) ->
  fresnel_cplx casin (RtoC (i_nmedium I)) n [i_inc I] = Ok ([Some rp], [Some rs]) ->
  let reflectance := reflection_any fsolve factorial casin mie_ang mie_cabs integ dcs in
  let ks := a_rho A * total_abs (integ n) (surfaces I) A P S in
  let ka := 4 * PI * snd n / i_wavelen I in
  0 < ka /\ 0 <= ks
  /\ exists (T U : R -> R) dp ds,
    (forall t, In t (detected_angles A) -> fresnel_cplx casin n (RtoC (i_nmedium I)) [PI - t]
                                          = Ok ([Some (1 - T t)], [Some (1 - U t)]))
    /\ dp = (1 - rp) * (a_rho A * fst (detected_abs (integ n) (surfaces I) A P S T U)) / (ks + ka)
    /\ ds = (1 - rs) * (a_rho A * snd (detected_abs (integ n) (surfaces I) A P S T U)) / (ks + ka)
    /\ (snd n <= fst n -> 0 <= dp) /\ 0 <= ds
    /\ (forall L, exists o, reflectance (in_thickness I (Some L)) = Ok o
          /\ let x := ks / (ks + ka) * (1 - exp (- ((ks + ka) * L))) in
             r_par o = Some (rp + dp * x) /\ r_perp o = Some (rs + ds * x)
             /\ r_unpol o = Some ((rp + rs) / 2 + (dp + ds) / 2 * x))
    /\ (exists o, reflectance (in_thickness I None) = Ok o
          /\ r_par o = Some (rp + dp) /\ r_perp o = Some (rs + ds)).
Proof.
  intros fsolve factorial casin mie_ang mie_cabs integ dcs I n P S rp rs HS A G Hg Hi Hp Hf reflectance ks ka.
  pose proof HS as (_ & _ & Ha & Hb). pose proof PI_RGT_0 as HP.
  pose proof G as (_ & _ & Gw & Gr & _).
  assert (Gw' : 0 < i_wavelen I) by exact Gw.
  assert (Hka : 0 < ka) by (apply Rdiv_lt_0_compat; [nra|exact Gw']).
  assert (Hsc : 0 <= total_abs (integ n) (surfaces I) A P S).
  { apply total_nonneg; try assumption. intros t Ht. apply (Hg t). now right. }
  assert (Hks : 0 <= ks) by (apply Rmult_le_pos; lra).
  split; [exact Hka|]. split; [exact Hks|].
  destruct (det_nonneg casin n (integ n) (surfaces I) A P S Hi G Ha Hb Hp) as [D1 D2].
  { intros t Ht. apply (Hg t). now left. }
  set (sc := total_abs (integ n) (surfaces I) A P S) in *.
  set (cext := sc + a_cabs A).
  assert (Ec : a_cabs A = ka / a_rho A) by reflexivity.
  assert (Hx : 0 < cext).
  { unfold cext. rewrite Ec. apply Rplus_le_lt_0_compat; [exact Hsc|]. apply Rdiv_lt_0_compat; [exact Hka|exact Gr]. }
  assert (Er : a_rho A * cext = ks + ka) by (unfold cext, ks; fold sc; rewrite Ec; field; lra).
  assert (Ef : sc / cext = ks / (ks + ka)) by (rewrite <- Er; unfold ks; fold sc; field; split; lra).
  destruct (absorbing_law casin (integ n) n (surfaces I) A (dcs n) P S Ha Hb G Hg) as (rp' & rs' & Er' & F1 & F2 & F3 & _).
  change (a_nmedium A) with (i_nmedium I) in Er'. change (a_inc A) with (i_inc I) in Er'. rewrite Hf in Er'.
  assert (rp' = rp) as -> by (injection Er' as -> ->; reflexivity).
  assert (rs' = rs) as -> by (injection Er' as ->; reflexivity). clear Er'.
  exists (Tp casin n (i_nmedium I)), (Ts casin n (i_nmedium I)),
    ((1 - rp) * detp_abs casin n (integ n) (surfaces I) A P S / cext),
    ((1 - rs) * dets_abs casin n (integ n) (surfaces I) A P S / cext).
  split.
  { intros t Ht. pose proof (detected_in A t G Ht).
    destruct (T_abs casin n (i_nmedium I) t ltac:(apply G) Ha Hb ltac:(lra)) as (E & _).
    unfold fresnel_cplx. cbn [existsb]. rewrite (proj2 (Rltb_false _ _)) by lra. cbn [orb map]. rewrite E. reflexivity. }
  split; [rewrite <- Er; unfold detected_abs; cbn [fst snd];
          change (weighted _ _) with (detp_abs casin n (integ n) (surfaces I) A P S); field; lra|].
  split; [rewrite <- Er; unfold detected_abs; cbn [fst snd];
          change (weighted _ _) with (dets_abs casin n (integ n) (surfaces I) A P S); field; lra|].
  split; [intros Hab; specialize (F2 Hab); apply Rmult_le_pos; [apply Rmult_le_pos; lra|left; now apply Rinv_0_lt_compat]|].
  split; [apply Rmult_le_pos; [apply Rmult_le_pos; lra|left; now apply Rinv_0_lt_compat]|].
  assert (K : forall th, exists rp' rs', fresnel_cplx casin (RtoC (i_nmedium I)) n [i_inc I] = Ok ([Some rp'], [Some rs'])
     /\ reflectance (in_thickness I th) = Ok (
             let g := ndiv (cos_abs (integ n) (surfaces I) A P S) sc in
             let factor := match th with None => Some 1
                           | Some L => ndiv ((1 - exp (- a_rho A * cext * L)) * sc) cext end in
             let refl t r d := nbind factor (fun f => nbind (ndiv (t * d) cext) (fun a => Some (a * f + r))) in
             let p := refl (1 - rp') rp' (detp_abs casin n (integ n) (surfaces I) A P S) in
             let s := refl (1 - rs') rs' (dets_abs casin n (integ n) (surfaces I) A P S) in
             mk_rout (nmap2 (fun a b => (a + b) / 2) p s) p s g
               (nbind g (fun g => nbind (ndiv 1 (1 - g)) (fun a => nbind (ndiv a (a_rho A)) (fun b => ndiv b sc)))))).
  { intros th. destruct (absorbing_law casin (integ n) n (surfaces (in_thickness I th)) (absorbing_args (in_thickness I th) n) (dcs n) P S Ha Hb G Hg)
      as (rp' & rs' & Q & _ & _ & _ & Q').
    exists rp', rs'. split; [exact Q|]. unfold reflectance. rewrite (to_absorbing fsolve factorial casin mie_ang mie_cabs integ dcs _ n (in_thickness_absorbing fsolve I n th HS)).
    rewrite Q'. reflexivity. }
  split.
  - intros L. destruct (K (Some L)) as (p' & s' & Q & ->). rewrite Hf in Q.
    assert (p' = rp) as -> by (injection Q as -> ->; reflexivity).
    assert (s' = rs) as -> by (injection Q as ->; reflexivity).
    eexists. split; [reflexivity|]. cbn [r_par r_perp r_unpol].
    unfold ndiv. rewrite (proj2 (Reqb_false cext 0)) by lra. cbn [nbind nmap2].
    assert (Ee : - a_rho A * cext * L = - ((ks + ka) * L)) by (rewrite <- Er; ring).
    rewrite Ee, <- Ef. set (ex := exp _). repeat split; f_equal; field; lra.
  - destruct (K None) as (p' & s' & Q & ->). rewrite Hf in Q.
    assert (p' = rp) as -> by (injection Q as -> ->; reflexivity).
    assert (s' = rs) as -> by (injection Q as ->; reflexivity).
    eexists. split; [reflexivity|]. cbn [r_par r_perp r_unpol].
    unfold ndiv. rewrite (proj2 (Reqb_false cext 0)) by lra. cbn [nbind nmap2].
    split; f_equal; field; lra.
Qed.
Print Assumptions C118_thickness_law.

(** The reflectances lie between the specular ones and those for thickness None
    (the imaginary part of the index at most its real part) and grow with the
    thickness. *)
Theorem C118_monotone : forall fsolve factorial casin mie_ang mie_cabs integ dcs I n (P S : R -> R) rp rs L1 L2,
  absorbing_sample fsolve I n ->
  let A := absorbing_args I n in
  geometry_ok A -> gives A (dcs n) P S -> nonneg_integrator (integ n) ->
  (forall p, In p (surfaces I) -> 0 <= fst p) ->
  fresnel_cplx casin (RtoC (i_nmedium I)) n [i_inc I] = Ok ([Some rp], [Some rs]) ->
  snd n <= fst n -> 0 <= L1 <= L2 ->
  let reflectance := reflection_any fsolve factorial casin mie_ang mie_cabs integ dcs in
  exists o1 o2 o3 p1 p2 p3 s1 s2 s3,
    reflectance (in_thickness I (Some L1)) = Ok o1 /\ reflectance (in_thickness I (Some L2)) = Ok o2
    /\ reflectance (in_thickness I None) = Ok o3
    /\ r_par o1 = Some p1 /\ r_par o2 = Some p2 /\ r_par o3 = Some p3
    /\ r_perp o1 = Some s1 /\ r_perp o2 = Some s2 /\ r_perp o3 = Some s3
    /\ rp <= p1 <= p2 /\ p2 <= p3 /\ rs <= s1 <= s2 /\ s2 <= s3.
Proof.
  intros fsolve factorial casin mie_ang mie_cabs integ dcs I n P S rp rs L1 L2 HS A G Hg Hi Hp Hf Hab HL reflectance.
  destruct (C118_thickness_law fsolve factorial casin mie_ang mie_cabs integ dcs I n P S rp rs HS G Hg Hi Hp Hf)
    as (Hka & Hks & T & U & dp & ds & _ & _ & _ & Hdp & Hds & H & (o3 & Ho3 & H31 & H32)).
  specialize (Hdp Hab). fold A in Hks, H. cbn zeta in H.
  set (ks := a_rho A * total_abs (integ n) (surfaces I) A P S) in *. set (ka := 4 * PI * snd n / i_wavelen I) in *.
  destruct (H L1) as (o1 & Ho1 & H11 & H12 & _). destruct (H L2) as (o2 & Ho2 & H21 & H22 & _).
  exists o1, o2, o3. do 6 eexists. split; [exact Ho1|]. split; [exact Ho2|]. split; [exact Ho3|].
  split; [exact H11|]. split; [exact H21|]. split; [exact H31|].
  split; [exact H12|]. split; [exact H22|]. split; [exact H32|].
  assert (Q : 0 <= ks / (ks + ka) <= 1) by (apply quot_fraction; lra).
  set (q := ks / (ks + ka)) in *. set (e1 := exp (- ((ks + ka) * L1))). set (e2 := exp (- ((ks + ka) * L2))).
  assert (E2 : 0 < e2) by apply exp_pos.
  assert (E1 : e1 <= 1).
  { unfold e1. rewrite <- exp_0. destruct (Req_dec L1 0) as [->|Hn]; [right; f_equal; ring|left; apply exp_increasing; nra]. }
  assert (E12 : e2 <= e1).
  { unfold e1, e2. destruct (Req_dec L1 L2) as [->|Hn]; [right; reflexivity|left; apply exp_increasing; nra]. }
  assert (X1 : 0 <= q * (1 - e1)) by nra. assert (X2 : q * (1 - e1) <= q * (1 - e2)) by nra.
  assert (X3 : q * (1 - e2) <= 1) by nra.
  repeat split; nra.
Qed.
Print Assumptions C118_monotone.

(** Asymmetry parameter and transport length: l* = 1/((1-g) ks), where g is the
    mean cosine. *)
Theorem C118_transport_length : forall fsolve factorial casin mie_ang mie_cabs integ dcs I n (P S : R -> R),
  absorbing_sample fsolve I n ->
  let A := absorbing_args I n in
  geometry_ok A -> gives A (dcs n) P S ->
  let sc := total_abs (integ n) (surfaces I) A P S in
  let g := cos_abs (integ n) (surfaces I) A P S / sc in
  0 < sc -> g < 1 ->
  exists o, reflection_any fsolve factorial casin mie_ang mie_cabs integ dcs I = Ok o
    /\ r_asym o = Some g /\ r_lstar o = Some (1 / ((1 - g) * (a_rho A * sc))).
Proof.
  intros fsolve factorial casin mie_ang mie_cabs integ dcs I n P S HS A G Hg sc g Hsc Hg1.
  pose proof HS as (_ & _ & Ha & Hb). pose proof G as (_ & _ & _ & Gr & _).
  destruct (absorbing_law casin (integ n) n (surfaces I) A (dcs n) P S Ha Hb G Hg) as (rp & rs & _ & _ & _ & _ & E).
  rewrite (to_absorbing fsolve factorial casin mie_ang mie_cabs integ dcs I n HS). fold A. rewrite E.
  eexists. split; [reflexivity|]. cbn [r_asym r_lstar]. fold sc.
  unfold ndiv. rewrite (proj2 (Reqb_false sc 0)) by lra. cbn [nbind]. fold g.
  rewrite (proj2 (Reqb_false (1 - g) 0)) by lra. cbn [nbind]. rewrite (proj2 (Reqb_false (a_rho A) 0)) by lra.
  cbn [nbind]. split; [reflexivity|]. f_equal. field. repeat split; lra.
Qed.
Print Assumptions C118_transport_length.

(** A film of spheres of index 3/2 and radius 1, volume fraction 1/2, in a
    matrix of index [n], seen from air at normal incidence. *)
Definition film (n : C) (th : option R) : refl_in :=
  mk_rin [RtoC (3 / 2)] n 1 (2 * PI) [1] (1 / 2) None None None th (PI / 2) PI 0 (2 * PI) 0 5 0
    S_none (Some "sphere"%string) false None false false.
Lemma film_absorbing fsolve n th : 0 < fst n -> 0 < snd n -> absorbing_sample fsolve (film n th) n.
Proof. intros Ha Hb. split; [reflexivity|]. split; [exists None; reflexivity|]. split; assumption. Qed.
Lemma film_geometry n th : 0 < fst n -> 0 < snd n -> geometry_ok (absorbing_args (film n th) n).
Proof.
  intros Ha Hb. pose proof PI_RGT_0 as HP.
  assert (Hr : reflection_rho (1 / 2) [1] [1] None = 3 / (8 * PI)).
  { cbn. unfold number_density, Rmax_list. cbn [fold_right]. rewrite Rmax_left by lra. field. lra. }
  assert (Hp : 0 < 3 / (8 * PI)) by (apply Rdiv_lt_0_compat; lra).
  unfold geometry_ok, absorbing_args, film. cbn [a_nmedium a_nsample a_wavelen a_rho a_cabs a_tmin a_tmax a_pmin a_pmax a_inc a_small
    i_nmedium i_wavelen i_vf i_radius i_radius2 i_conc i_thickness i_tmin i_tmax i_pmin i_pmax i_inc i_num i_small].
  rewrite Hr. split; [lra|]. split.
  { apply Cmod_gt_0. intros E. rewrite E in Ha. cbn in Ha. lra. }
  split; [lra|]. split; [exact Hp|]. split.
  { left. apply Rdiv_lt_0_compat; [|exact Hp]. apply Rdiv_lt_0_compat; [nra|lra]. }
  repeat split; lra.
Qed.

(** Reflectances are not fractions for a matrix absorbing enough: whatever is
    scattered, this film at zero thickness reflects more than it receives. *)
Theorem C118_fraction_refuted : forall fsolve factorial casin mie_ang mie_cabs integ dcs (P S : R -> R),
  let n := (1, 2) in
  nonneg_integrator (integ n) -> (forall t, dcs n t = Ok (Some (P t), Some (S t)) /\ 0 <= P t /\ 0 <= S t) ->
  exists o r, reflection_any fsolve factorial casin mie_ang mie_cabs integ dcs (film n (Some 0)) = Ok o
    /\ r_par o = Some r /\ 1 < r.
Proof.
  intros fsolve factorial casin mie_ang mie_cabs integ dcs P S n Hi Hd. pose proof PI_RGT_0 as HP.
  destruct (C117_parallel_above_one_refuted casin 1 n 0) as (rp & E1 & H1); cbn [n fst snd]; try lra.
  destruct (C117_normal_incidence_refuted casin 1 n) as (rp' & rs & E2 & H2); cbn [n fst snd]; try lra.
  assert (rp' = rp) as ->.
  { unfold fresnel_cplx in E2. cbn [existsb] in E2. rewrite (proj2 (Rltb_false _ _)) in E2 by lra. cbn [orb map] in E2.
    rewrite E1 in E2. injection E2 as <- _. reflexivity. }
  destruct (C118_thickness_law fsolve factorial casin mie_ang mie_cabs integ dcs (film n None) n P S rp rs)
    as (_ & _ & T & U & dp & ds & _ & _ & _ & _ & _ & H & _).
  - apply film_absorbing; cbn; lra.
  - apply film_geometry; cbn; lra.
  - intros t _. apply Hd.
  - exact Hi.
  - intros p [<-|[]]. cbn. lra.
  - exact E2.
  - destruct (H 0) as (o & Ho & Hp & _). exists o. eexists. split; [exact Ho|]. split; [exact Hp|].
    rewrite Rmult_0_r, Ropp_0, exp_0. apply proj2 in H1. cbn [n fst snd] in H1. specialize (H1 ltac:(lra)). lra.
Qed.
Print Assumptions C118_fraction_refuted.

(** The surfaces on which the cross sections are integrated ([surfaces] above):
    for a polydisperse sample of two species, that of each species with its
    concentration as weight; for any other sample, the surface of the largest
    particle (its outermost layer). *)
Theorem C118_surfaces : forall I,
  (forall c0 c1 r1 r2, i_form I = Some "polydisperse"%string -> i_conc I = Some (c0, c1) ->
     i_radius I = [r1] -> i_radius2 I = Some [r2] -> surfaces I = [(c0, r1); (c1, r2)])
  /\ (i_form I <> Some "polydisperse"%string -> i_radius I <> [] -> Forall (fun r => 0 < r) (i_radius I) ->
      (forall r2, i_radius2 I = Some r2 -> Forall (fun r => 0 < r) r2) ->
      exists d, surfaces I = [(1, d)]
        /\ (In d (i_radius I) \/ exists r2, i_radius2 I = Some r2 /\ In d r2)
        /\ (forall r, In r (i_radius I) -> r <= d)
        /\ (forall r2 r, i_radius2 I = Some r2 -> In r r2 -> r <= d)).
Proof.
  intros I. split.
  - intros c0 c1 r1 r2 Hf Hc H1 H2. unfold surfaces. rewrite Hf, Hc, H1, H2. cbn. do 2 f_equal; [|f_equal]; f_equal; field.
  - intros Hf Hne Hp Hp2. unfold surfaces.
    set (r2 := match i_radius2 I with Some r => r | None => i_radius I end).
    assert (Hall : Forall (fun r => 0 < r) (i_radius I ++ r2)).
    { apply Forall_app. split; [exact Hp|]. unfold r2. destruct (i_radius2 I) as [q|]; [now apply Hp2|exact Hp]. }
    assert (M : forall l, l <> [] -> Forall (fun r => 0 < r) l ->
              exists d, Rmax_list (map (fun r => 2 * r) l) = 2 * d /\ In d l /\ forall r, In r l -> r <= d).
    { clear. unfold Rmax_list. induction l as [|a l IH]; intros Hn H; [contradiction|]. inversion H as [|? ? Ha Hl]; subst.
      cbn [map fold_right]. destruct l as [|b l].
      - exists a. cbn. rewrite Rmax_left by lra. split; [reflexivity|]. split; [now left|]. intros r [<-|[]]. lra.
      - destruct (IH ltac:(discriminate) Hl) as (d & -> & Hd & Hm). destruct (Rle_dec a d) as [L|L].
        + exists d. rewrite Rmax_right by lra. split; [reflexivity|]. split; [now right|]. intros r [<-|Hr]; [exact L|now apply Hm].
        + exists a. rewrite Rmax_left by lra. split; [reflexivity|]. split; [now left|]. intros r [<-|Hr]; [lra|]. specialize (Hm r Hr). lra. }
    destruct (M (i_radius I ++ r2)) as (d & Ed & Hd & Hm); [|exact Hall|].
    { destruct (i_radius I); [contradiction|discriminate]. }
    exists d. rewrite Ed. replace (2 * d / 2) with d by field.
    split; [|split; [|split]].
    + destruct (i_form I) as [ft|]; [|reflexivity]. destruct (i_conc I) as [[c0 c1]|]; [|reflexivity].
      destruct (String.eqb_spec ft "polydisperse"); [subst; contradiction|reflexivity].
    + apply in_app_or in Hd as [Hd|Hd]; [now left|]. unfold r2 in Hd. destruct (i_radius2 I) as [q|]; [right; eauto|now left].
    + intros r Hr. apply Hm, in_or_app. now left.
    + intros q r Hq Hr. apply Hm, in_or_app. right. unfold r2. now rewrite Hq.
Qed.
Print Assumptions C118_surfaces.

(** A concrete absorbing film with an integrator that adds up intensities: the
    hypotheses hold and the diffuse reflectance is there. *)
Definition adding (par perp : list R) (d : R) (angles : list R) (lo hi : R) : R * R * R :=
  (d ^ 2 * (hi - lo) * ((Rsum par + Rsum perp) / 2), d ^ 2 * (hi - lo) * Rsum par, d ^ 2 * (hi - lo) * Rsum perp).
Lemma Rsum_nonneg l : Forall (fun x => 0 <= x) l -> 0 <= Rsum l.
Proof.
  unfold Rsum. induction 1 as [|x l Hx Hl IH]; cbn [fold_right]; [apply Rle_refl|]. now apply Rplus_le_le_0_compat.
Qed.
Lemma adding_ok : nonneg_integrator adding.
Proof.
  intros par perp d angles lo hi H1 H2 H3. apply Rsum_nonneg in H1, H2. unfold adding. cbn [fst snd].
  assert (0 <= d ^ 2 * (hi - lo)) by (apply Rmult_le_pos; [nra|lra]). repeat split; apply Rmult_le_pos; lra.
Qed.
Example C118_case : forall fsolve factorial casin mie_ang mie_cabs,
  let n := (3 / 2, 1 / 100) in
  exists o1 o2 p1 p2, 
    reflection_any fsolve factorial casin mie_ang mie_cabs (fun _ => adding) (fun _ => dcs_of (fun _ => 1) (fun _ => 1)) (film n (Some 1)) = Ok o1
    /\ reflection_any fsolve factorial casin mie_ang mie_cabs (fun _ => adding) (fun _ => dcs_of (fun _ => 1) (fun _ => 1)) (film n None) = Ok o2
    /\ r_par o1 = Some p1 /\ r_par o2 = Some p2 /\ 0 <= p1 <= p2
    /\ 0 < total_abs adding (surfaces (film n None)) (absorbing_args (film n None) n) (fun _ => 1) (fun _ => 1).
Proof.
  intros fsolve factorial casin mie_ang mie_cabs n. pose proof PI_RGT_0 as HP.
  destruct (C117_entrance_fractions_partial casin 1 n 0) as (rp & rs & E & Hp & _); cbn [n fst snd]; try lra.
  destruct (C118_monotone fsolve factorial casin mie_ang mie_cabs (fun _ => adding) (fun _ => dcs_of (fun _ => 1) (fun _ => 1))
    (film n None) n (fun _ => 1) (fun _ => 1) rp rs 0 1) as (o1 & o2 & o3 & p1 & p2 & p3 & s1 & s2 & s3 & _ & H2 & H3 & _ & P2 & P3 & _ & _ & _ & Q1 & Q2 & _).
  - apply film_absorbing; cbn; lra.
  - apply film_geometry; cbn; lra.
  - intros t _. split; [reflexivity|lra].
  - exact adding_ok.
  - intros p [<-|[]]. cbn. lra.
  - exact E.
  - cbn. lra.
  - lra.
  - exists o2, o3, p2, p3. split; [exact H2|]. split; [exact H3|]. split; [exact P2|]. split; [exact P3|]. split; [lra|].
    assert (T5 : total_angles (absorbing_args (film n None) n) = linspace (0 + 0) PI 5) by reflexivity.
    unfold total_abs. rewrite T5. unfold weighted, surfaces, film.
    cbn [i_form i_conc i_radius i_radius2 map app Rsum fold_right fst snd].
    unfold Rmax_list. cbn [fold_right]. rewrite (Rmax_left (2 * 1) 0) by lra. rewrite Rmax_left by lra.
    unfold adding, linspace. cbn [fst snd map seq Rsum fold_right Nat.sub]. nra.
Qed.
