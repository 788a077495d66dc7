(** Single-scattering model: C56-C58, C79-C87. *)
From Coq Require Import Lia Lra.
From Verif Require Import Num Spec Spec_scatter Spec_optics L_num L_trapezoid M_model M_structure
  M_refractive_index M_reflection Spec_reflection L_montecarlo2 L_slots L_fresnel L_reflection
  L_reflection2 L_reflection3 L_reflection4 L_sizes L_units L_dcs.
From Coquelicot Require Import Complex.
Open Scope R_scope.

(** ** C56: dependence on the thickness *)

Lemma thickness_law' A dcs P S rp rs : geometry_ok A -> gives A dcs P S -> 0 < sigma_ext A P S ->
  specular A rp rs ->
  exists cp cs, 0 <= cp /\ 0 <= cs
    /\ (forall L, exists o, reflection_real (with_thickness A (Some L)) dcs = Ok o
          /\ let x := 1 - exp (- (a_rho A * sigma_ext A P S * L)) in
             r_par o = Some (rp + cp * x) /\ r_perp o = Some (rs + cs * x)
             /\ r_unpol o = Some ((rp + rs) / 2 + (cp + cs) / 2 * x))
    /\ (exists o, reflection_real (with_thickness A None) dcs = Ok o
          /\ exists dp ds, r_par o = Some (rp + dp) /\ r_perp o = Some (rs + ds)
             /\ cp * sigma_ext A P S = dp * sigma_scat A P S
             /\ cs * sigma_ext A P S = ds * sigma_scat A P S).
Proof.
  intros G Hg Hx Hs. destruct (specular_fres A rp rs G Hs) as [<- <-].
  destruct (gives_pos A dcs P S Hg) as (N & _ & _ & E1 & E2).
  destruct (thickness_law A (pos P) (pos S) G N ltac:(now rewrite E2)) as (cp & cs & H1 & H2 & H3 & H4).
  rewrite E1, E2 in *. exists cp, cs. split; [exact H1|]. split; [exact H2|]. split.
  - intros L. destruct (gives_pos (with_thickness A (Some L)) dcs P S Hg) as (_ & -> & _). apply H3.
  - destruct (gives_pos (with_thickness A None) dcs P S Hg) as (_ & -> & _). exact H4.
Qed.

(** Without any thickness only the front surface reflects. *)
Theorem C56_zero_thickness : forall A dcs P S rp rs, geometry_ok A -> gives A dcs P S ->
  0 < sigma_ext A P S -> specular A rp rs ->
  exists o, reflection_real (with_thickness A (Some 0)) dcs = Ok o
    /\ r_par o = Some rp /\ r_perp o = Some rs /\ r_unpol o = Some ((rp + rs) / 2).
Proof.
  intros A dcs P S rp rs G Hg Hx Hs.
  destruct (thickness_law' A dcs P S rp rs G Hg Hx Hs) as (cp & cs & _ & _ & H & _).
  destruct (H 0) as (o & Ho & H1 & H2 & H3). exists o. split; [exact Ho|].
  rewrite H1, H2, H3, Rmult_0_r, Ropp_0, exp_0.
  split; [f_equal; ring|]. split; f_equal; field.
Qed.
Print Assumptions C56_zero_thickness.

(** A thicker film reflects no less, and never less than the front surface. *)
Theorem C56_monotone : forall A dcs P S rp rs L1 L2, geometry_ok A -> gives A dcs P S ->
  0 < sigma_ext A P S -> specular A rp rs -> 0 <= L1 <= L2 ->
  exists o1 o2 p1 p2 s1 s2 u1 u2,
    reflection_real (with_thickness A (Some L1)) dcs = Ok o1
    /\ reflection_real (with_thickness A (Some L2)) dcs = Ok o2
    /\ r_par o1 = Some p1 /\ r_par o2 = Some p2 /\ r_perp o1 = Some s1 /\ r_perp o2 = Some s2
    /\ r_unpol o1 = Some u1 /\ r_unpol o2 = Some u2
    /\ rp <= p1 <= p2 /\ rs <= s1 <= s2 /\ (rp + rs) / 2 <= u1 <= u2.
Proof.
  intros A dcs P S rp rs L1 L2 G Hg Hx Hs HL.
  destruct (thickness_law' A dcs P S rp rs G Hg Hx Hs) as (cp & cs & C1 & C2 & H & _).
  destruct (H L1) as (o1 & Ho1 & H11 & H12 & H13). destruct (H L2) as (o2 & Ho2 & H21 & H22 & H23).
  assert (Hr : 0 < a_rho A) by apply G.
  set (k := a_rho A * sigma_ext A P S) in *.
  assert (K : 0 < k) by (unfold k; nra).
  assert (X : 0 <= 1 - exp (- (k * L1)) <= 1 - exp (- (k * L2))).
  { assert (M : forall a b, a <= b -> exp a <= exp b).
    { intros a b [L| ->]; [left; now apply exp_increasing|lra]. }
    pose proof (M (- (k * L1)) 0 ltac:(nra)) as M1. rewrite exp_0 in M1.
    pose proof (M (- (k * L2)) (- (k * L1)) ltac:(nra)). lra. }
  set (x1 := 1 - exp (- (k * L1))) in *. set (x2 := 1 - exp (- (k * L2))) in *.
  exists o1, o2. do 6 eexists.
  split; [exact Ho1|]. split; [exact Ho2|]. split; [exact H11|]. split; [exact H21|].
  split; [exact H12|]. split; [exact H22|]. split; [exact H13|]. split; [exact H23|].
  repeat split; nra.
Qed.
Print Assumptions C56_monotone.

(** The limit of large thickness, in general: the scattered part tends to the
    one for thickness=None times sigma_scat/sigma_ext. *)
Theorem C56_thick_limit : forall A dcs P S rp rs, geometry_ok A -> gives A dcs P S ->
  0 < sigma_ext A P S -> specular A rp rs ->
  exists oN dp ds, reflection_real (with_thickness A None) dcs = Ok oN
    /\ r_par oN = Some (rp + dp) /\ r_perp oN = Some (rs + ds)
    /\ forall eps, 0 < eps -> exists L0, forall L, L0 < L ->
         exists o p s, reflection_real (with_thickness A (Some L)) dcs = Ok o
           /\ r_par o = Some p /\ r_perp o = Some s
           /\ Rabs (p - (rp + dp * (sigma_scat A P S / sigma_ext A P S))) < eps
           /\ Rabs (s - (rs + ds * (sigma_scat A P S / sigma_ext A P S))) < eps.
Proof.
  intros A dcs P S rp rs G Hg Hx Hs.
  destruct (thickness_law' A dcs P S rp rs G Hg Hx Hs) as (cp & cs & C1 & C2 & H & oN & HN & dp & ds & N1 & N2 & E1 & E2).
  exists oN, dp, ds. split; [exact HN|]. split; [exact N1|]. split; [exact N2|].
  intros eps He.
  assert (Hr : 0 < a_rho A) by apply G.
  set (sg := sigma_ext A P S) in *. set (k := a_rho A * sg) in *.
  assert (K : 0 < k) by (unfold k; nra).
  assert (F1 : dp * (sigma_scat A P S / sg) = cp).
  { apply (Rmult_eq_reg_r sg); [|lra]. rewrite E1. field. lra. }
  assert (F2 : ds * (sigma_scat A P S / sg) = cs).
  { apply (Rmult_eq_reg_r sg); [|lra]. rewrite E2. field. lra. }
  rewrite F1, F2.
  set (M := cp + cs + 1). assert (HM : 0 < M) by (unfold M; lra).
  exists (M / (eps * k)). intros L HL.
  assert (Q : 0 < eps * k) by nra.
  assert (HL' : M < L * (eps * k)).
  { apply (Rmult_lt_compat_r (eps * k)) in HL; [|exact Q].
    replace (M / (eps * k) * (eps * k)) with M in HL by (field; lra). lra. }
  assert (L0 : 0 < k * L).
  { apply (Rmult_lt_reg_r eps); [exact He|]. rewrite Rmult_0_l. nra. }
  assert (X : exp (- (k * L)) * M < eps).
  { rewrite exp_Ropp. pose proof (exp_ineq1 (k * L) ltac:(lra)) as EI.
    pose proof (exp_pos (k * L)) as EP.
    apply (Rmult_lt_reg_l (exp (k * L))); [exact EP|].
    rewrite <- Rmult_assoc, Rinv_r by lra. nra. }
  pose proof (exp_pos (- (k * L))) as EP.
  destruct (H L) as (o & Ho & H1 & H2 & _).
  eexists o, _, _. split; [exact Ho|]. split; [exact H1|]. split; [exact H2|].
  unfold M in X.
  split.
  - replace (rp + cp * (1 - exp (- (k * L))) - (rp + cp)) with (- (cp * exp (- (k * L)))) by ring.
    rewrite Rabs_Ropp, Rabs_pos_eq by nra. nra.
  - replace (rs + cs * (1 - exp (- (k * L))) - (rs + cs)) with (- (cs * exp (- (k * L)))) by ring.
    rewrite Rabs_Ropp, Rabs_pos_eq by nra. nra.
Qed.
Print Assumptions C56_thick_limit.

(** So the thickness=None result is the limit for particles that do not absorb ... *)
Theorem C56_none_is_limit_partial : forall A dcs P S rp rs, geometry_ok A -> gives A dcs P S ->
  0 < sigma_ext A P S -> specular A rp rs -> a_cabs A = 0 ->
  exists oN pN sN, reflection_real (with_thickness A None) dcs = Ok oN
    /\ r_par oN = Some pN /\ r_perp oN = Some sN
    /\ forall eps, 0 < eps -> exists L0, forall L, L0 < L ->
         exists o p s, reflection_real (with_thickness A (Some L)) dcs = Ok o
           /\ r_par o = Some p /\ r_perp o = Some s /\ Rabs (p - pN) < eps /\ Rabs (s - sN) < eps.
Proof.
  intros A dcs P S rp rs G Hg Hx Hs Hc.
  destruct (C56_thick_limit A dcs P S rp rs G Hg Hx Hs) as (oN & dp & ds & H1 & H2 & H3 & H4).
  exists oN, (rp + dp), (rs + ds). repeat (split; [assumption|]).
  assert (E : sigma_scat A P S / sigma_ext A P S = 1).
  { unfold sigma_ext in *. rewrite Hc, Rplus_0_r in *. field. lra. }
  rewrite E, !Rmult_1_r in H4. exact H4.
Qed.
Print Assumptions C56_none_is_limit_partial.

(** ... and not for absorbing ones: every film, however thick, reflects less
    than thickness=None by a fixed amount. *)
Theorem C56_none_is_limit_refuted : exists A P S gap pN oN, geometry_ok A /\ gives A (dcs_of P S) P S
  /\ 0 < sigma_ext A P S /\ 0 < a_cabs A /\ 0 < gap
  /\ reflection_real (with_thickness A None) (dcs_of P S) = Ok oN /\ r_par oN = Some pN
  /\ forall L, 0 <= L -> exists o p, reflection_real (with_thickness A (Some L)) (dcs_of P S) = Ok o
       /\ r_par o = Some p /\ p + gap <= pN.
Proof.
  set (A := A5 1 None). assert (G : geometry_ok A) by (apply A5_ok; lra). pose proof PI_RGT_0 as HP.
  destruct back_values as (B0 & B1 & B2 & B3 & B4). destruct eighths as (H1 & H2 & H3 & H4).
  assert (Es : sigma_scat A back back = 2 * PI * (PI / 4) * (1 + sin (3 * PI / 4))).
  { unfold A. rewrite (proj1 (A5_scat 1 None back)), B0, B1, B3. ring. }
  assert (Ps : 0 < sigma_scat A back back) by (rewrite Es; apply Rmult_lt_0_compat; [nra|lra]).
  assert (Ex : sigma_ext A back back = sigma_scat A back back + 1) by reflexivity.
  assert (Ed : 0 < det_cs A back (Tpar A)).
  { unfold A. rewrite (proj1 (A5_detected 1 None back)), B2, B3, B4. apply Rmult_lt_0_compat; [nra|lra]. }
  set (s := sigma_scat A back back) in *. set (x := sigma_ext A back back) in *.
  set (d := det_cs A back (Tpar A)) in *.
  exists A, back, back, (d / x * (1 / x)), (d / x). eexists.
  split; [exact G|]. split.
  { intros t _. split; [reflexivity|]. unfold back. destruct (Rleb _ _); lra. }
  assert (Ix : 0 < / x) by (apply Rinv_0_lt_compat; lra).
  split; [unfold x in *; lra|]. split; [cbn; lra|]. split.
  { unfold Rdiv. rewrite Rmult_1_l. apply Rmult_lt_0_compat; [apply Rmult_lt_0_compat; lra|lra]. }
  assert (F : fres A = (0, 0)) by apply A5_fres.
  assert (Hx : sigma_ext A back back <> 0) by (fold x; lra).
  split; [apply geometry_value; exact G|]. cbn [r_par].
  change (fres (with_thickness A None)) with (fres A).
  change (det_cs (with_thickness A None)) with (det_cs A).
  change (Tpar (with_thickness A None)) with (Tpar A).
  rewrite F. cbn [fst snd]. split.
  { rewrite refl_pol_infinite by assumption. fold d x. f_equal. field. lra. }
  intros L HL. eexists _, _. split; [apply geometry_value; exact G|]. cbn [r_par].
  change (fres (with_thickness A (Some L))) with (fres A).
  change (det_cs (with_thickness A (Some L))) with (det_cs A).
  change (Tpar (with_thickness A (Some L))) with (Tpar A).
  rewrite F. cbn [fst snd]. split.
  { rewrite refl_pol_thick by assumption. reflexivity. }
  fold d x. unfold amp. fold s x.
  pose proof (exp_pos (- (a_rho A * x * L))) as EP.
  assert (D : 0 < d / x) by (apply Rmult_lt_0_compat; lra).
  assert (Sx : 0 < s / x) by (apply Rmult_lt_0_compat; lra).
  replace (1 / x) with (1 - s / x) by (rewrite Ex; field; lra).
  replace ((1 - 0) * d / x) with (d / x) by (field; lra).
  set (y := d / x) in *. set (z := s / x) in *. set (e := exp _) in *.
  assert (0 < y * z) by nra. nra.
Qed.
Print Assumptions C56_none_is_limit_refuted.

(** Hypotheses are met: the backward scatterer in an index-matched film. *)
Example C56_case : geometry_ok (A5 0 None) /\ gives (A5 0 None) (dcs_of back back) back back
  /\ 0 < sigma_ext (A5 0 None) back back /\ specular (A5 0 None) 0 0.
Proof.
  split; [apply A5_ok; lra|]. split.
  { intros t _. split; [reflexivity|]. unfold back. destruct (Rleb _ _); lra. }
  split.
  - unfold sigma_ext. rewrite (proj1 (A5_scat 0 None back)).
    destruct back_values as (B0 & B1 & _ & B3 & _). rewrite B0, B1, B3.
    destruct eighths as (_ & _ & _ & H4). pose proof PI_RGT_0. cbn [a_cabs A5]. rewrite Rplus_0_r.
    apply Rmult_lt_0_compat; [nra|lra].
  - pose proof (specular_exists (A5 0 None) (A5_ok 0 None ltac:(lra))) as H. now rewrite A5_fres in H.
Qed.

(** ** C57: the angular integral *)

Theorem C57_additive : forall c1 c2 factor angles azi, length c1 = length c2 ->
  integrate_cross_section (map2 Rplus c1 c2) factor angles azi
  = integrate_cross_section c1 factor angles azi + integrate_cross_section c2 factor angles azi.
Proof. intros. now apply integrate_plus. Qed.
Print Assumptions C57_additive.

Theorem C57_homogeneous : forall k c factor angles azi,
  integrate_cross_section (map (Rmult k) c) factor angles azi
  = k * integrate_cross_section c factor angles azi.
Proof. intros. apply integrate_scale. Qed.
Print Assumptions C57_homogeneous.

Theorem C57_nonneg : forall c factor angles azi, 0 <= azi -> ascending angles ->
  Forall (fun t => 0 <= t <= PI) angles -> Forall (fun x => 0 <= x) c -> Forall (fun x => 0 <= x) factor ->
  0 <= integrate_cross_section c factor angles azi.
Proof. intros. now apply integrate_nonneg. Qed.
Print Assumptions C57_nonneg.

(** Splitting the angle range at a grid point. *)
Theorem C57_split : forall c1 x c2 f1 y f2 a1 t a2 azi,
  length c1 = length a1 -> length f1 = length a1 -> length c2 = length a2 -> length f2 = length a2 ->
  integrate_cross_section (c1 ++ x :: c2) (f1 ++ y :: f2) (a1 ++ t :: a2) azi
  = integrate_cross_section (c1 ++ [x]) (f1 ++ [y]) (a1 ++ [t]) azi
    + integrate_cross_section (x :: c2) (y :: f2) (t :: a2) azi.
Proof. intros. now apply integrate_split. Qed.
Print Assumptions C57_split.

(** It is the trapezoid rule for azi * cross section * factor * sin(theta). *)
Theorem C57_trapezoid_rule : forall P F angles azi,
  integrate_cross_section (map P angles) (map F angles) angles azi
  = azi * trap_int (fun t => P t * F t * sin t) angles.
Proof. intros. apply integrate_map. Qed.
Print Assumptions C57_trapezoid_rule.

Example C57_case : 0 < integrate_cross_section [1; 1; 1] [1; 1; 1] [0; PI / 2; PI] (2 * PI).
Proof.
  unfold integrate_cross_section. cbn. rewrite sin_0, sin_PI2, sin_PI. pose proof PI_RGT_0. nra.
Qed.

(** ** C58: size distributions *)

(** Broad distributions (t <= 100): weights proportional to Schulz's
    d^t exp(-(t+1) d/mean), non-negative, integrating to 1. *)
Theorem C58_schulz : forall factorial g mean t, ascending g -> (forall d, In d g -> 0 <= d) ->
  hd 0 g < last g 0 -> t <= 100 -> 0 < factorial t ->
  exists ws c, size_distribution factorial g mean t = map Some ws /\ length ws = length g
    /\ Forall (fun w => 0 <= w) ws /\ trap_pts (combine g ws) = 1 /\ 0 < c
    /\ forall i, (i < length g)%nat -> 0 < nth i g 0 ->
         nth i ws 0 = c * (Rpower (nth i g 0) t * exp (- ((t + 1) * nth i g 0 / mean))).
Proof.
  intros factorial g mean t Ha Hd Hl Ht Hf.
  destruct (schulz_dist factorial g mean t Ha Hd Hl Ht Hf) as (ws & c & H1 & H2 & H3 & H4 & H5 & H6).
  exists ws, c. repeat (split; [assumption|]). intros i Hi Hp. rewrite (H6 i Hi).
  rewrite (proj1 (npow_pos _ t Hp)). do 2 f_equal. f_equal. unfold Rdiv. ring.
Qed.
Print Assumptions C58_schulz.

(** Narrow ones (t > 100) at positive diameters. *)
Theorem C58_narrow : forall factorial g mean t, ascending g -> (forall d, In d g -> 0 < d) ->
  hd 0 g < last g 0 -> 100 < t ->
  exists ws, size_distribution factorial g mean t = map Some ws /\ length ws = length g
    /\ Forall (fun w => 0 <= w) ws /\ trap_pts (combine g ws) = 1.
Proof.
  intros factorial g mean t Ha Hd Hl Ht.
  destruct (narrow_dist factorial g mean t Ha Hd Hl Ht) as (ws & c & H1 & H2 & H3 & H4 & _).
  exists ws. auto.
Qed.
Print Assumptions C58_narrow.

(** At a diameter of exactly 0 the narrow branch gives NaN everywhere. *)
Theorem C58_narrow_zero_diameter : forall factorial g mean t, 100 < t -> In 0 g ->
  forall w, In w (size_distribution factorial g mean t) -> w = None.
Proof.
  intros factorial g mean t Ht H0 w Hw. rewrite narrow_zero in Hw by assumption.
  apply in_map_iff in Hw as (d & <- & _). reflexivity.
Qed.
Print Assumptions C58_narrow_zero_diameter.

Example C58_case : exists ws, size_distribution (fun _ => 6) [0; 1; 2] 1 3 = map Some ws
  /\ trap_pts (combine [0; 1; 2] ws) = 1.
Proof.
  destruct (C58_schulz (fun _ => 6) [0; 1; 2] 1 3) as (ws & c & H1 & _ & _ & H4 & _).
  - intros [|[|[|i]]] Hi; cbn in *; try lra; lia.
  - intros d [<-|[<-|[<-|[]]]]; lra.
  - cbn. lra.
  - lra.
  - lra.
  - exists ws. auto.
Qed.

(** C87: the narrow distribution should be a Gaussian about the mean; the code
    takes the standard deviation proportional to each diameter instead of the
    mean, so diameters above the mean are favoured over those below. *)
Theorem C87_gaussian_symmetric_refuted : exists factorial g mean t ws,
  size_distribution factorial g mean t = map Some ws /\ g = [1 / 2; 1; 3 / 2] /\ mean = 1 /\ 100 < t
  /\ 2 * nth 0 ws 0 < nth 2 ws 0.
Proof.
  destruct (narrow_dist (fun _ => 1) [1 / 2; 1; 3 / 2] 1 399) as (ws & c & H1 & H2 & H3 & H4 & H5 & H6).
  - intros [|[|[|i]]] Hi; cbn in *; try lra; lia.
  - intros d [<-|[<-|[<-|[]]]]; lra.
  - cbn. lra.
  - lra.
  - exists (fun _ => 1), [1 / 2; 1; 3 / 2], 1, 399, ws. split; [exact H1|]. split; [reflexivity|].
    split; [reflexivity|]. split; [lra|].
    rewrite (H6 0%nat), (H6 2%nat) by (cbn; lia). cbn [nth].
    pose proof narrow_skewed. nra.
Qed.
Print Assumptions C87_gaussian_symmetric_refuted.

(** ** C79: asymmetry parameter and transport length *)

Theorem C79_asymmetry : forall A dcs P S, geometry_ok A -> gives A dcs P S -> 0 < sigma_scat A P S ->
  exists o g l, reflection_real A dcs = Ok o /\ r_asym o = Some g /\ r_lstar o = Some l
    /\ -1 < g < 1 /\ 0 < l
    /\ g * sigma_scat A P S
       = cross_sec (wavenumber A) (2 * PI) (total_angles A) (fun t => unpol P S t * cos t)
    /\ a_rho A * cross_sec (wavenumber A) (2 * PI) (total_angles A) (fun t => unpol P S t * (1 - cos t)) * l = 1.
Proof.
  intros A dcs P S G Hg Hs. destruct (gives_pos A dcs P S Hg) as (N & -> & E & E1 & E2).
  destruct (asymmetry_law A (pos P) (pos S) G N ltac:(now rewrite E1)) as (o & g & l & H1 & H2 & H3 & H4 & H5 & H6 & H7).
  exists o, g, l. repeat (split; [assumption|]). rewrite E1 in H6.
  assert (U : forall h, cross_sec (wavenumber A) (2 * PI) (total_angles A) (fun t => unpol (pos P) (pos S) t * h t)
              = cross_sec (wavenumber A) (2 * PI) (total_angles A) (fun t => unpol P S t * h t)).
  { intros h. apply sigma_ext_fun. intros t Ht. unfold unpol. destruct (E t (or_intror Ht)) as [-> ->]. reflexivity. }
  rewrite (U cos) in H6. rewrite (U (fun t => 1 - cos t)) in H7. auto.
Qed.
Print Assumptions C79_asymmetry.

(** ** C80: polarisations *)

Theorem C80_average_of_polarisations : forall A dcs P S rp rs, geometry_ok A -> gives A dcs P S ->
  0 < sigma_ext A P S -> (forall L, a_thickness A = Some L -> 0 <= L) -> specular A rp rs ->
  exists o p s, reflection_real A dcs = Ok o
    /\ r_par o = Some p /\ r_perp o = Some s /\ r_unpol o = Some ((p + s) / 2)
    /\ 0 <= rp <= p /\ 0 <= rs <= s.
Proof.
  intros A dcs P S rp rs G Hg Hx HL Hs. destruct (gives_pos A dcs P S Hg) as (N & -> & E & E1 & E2).
  destruct (pol_law A (pos P) (pos S) G N ltac:(now rewrite E2) HL) as (o & p & s & H1 & H2 & H3 & H4 & H5 & H6 & _).
  destruct (specular_fres A rp rs G Hs) as [<- <-]. destruct (fres_range A G) as [[F1 _] [F2 _]].
  exists o, p, s. auto 10.
Qed.
Print Assumptions C80_average_of_polarisations.

(** At normal incidence the unpolarised reflectance is a fraction if the
    quadrature does not find more light in the detector than in all
    directions. *)
Theorem C80_normal_incidence_fraction : forall A dcs P S, geometry_ok A -> gives A dcs P S ->
  0 < sigma_ext A P S -> (forall L, a_thickness A = Some L -> 0 <= L) -> a_inc A = 0 ->
  cross_sec (wavenumber A) (azimuth A) (detected_angles A) (unpol P S) <= sigma_scat A P S ->
  exists o u, reflection_real A dcs = Ok o /\ r_unpol o = Some u /\ 0 <= u <= 1.
Proof.
  intros A dcs P S G Hg Hx HL Hi Hd. destruct (gives_pos A dcs P S Hg) as (N & -> & E & E1 & E2).
  apply normal_fraction; try assumption; [now rewrite E2|]. rewrite E1.
  eapply Rle_trans; [|exact Hd]. right. apply sigma_ext_fun.
  intros t Ht. unfold unpol. destruct (E t (or_introl Ht)) as [-> ->]. reflexivity.
Qed.
Print Assumptions C80_normal_incidence_fraction.

(** The polarised reflectances are not: both are divided by the unpolarised
    cross section.  Light scattered backwards with one polarisation only. *)
Theorem C80_polarised_fraction_refuted : exists A P S o p, geometry_ok A /\ gives A (dcs_of P S) P S
  /\ 0 < sigma_ext A P S /\ a_inc A = 0
  /\ reflection_real A (dcs_of P S) = Ok o /\ r_par o = Some p /\ 1 < p.
Proof.
  destruct polarised_above_one as (o & p & H1 & H2 & H3 & _).
  exists (A5 0 None), back, (fun _ => 0), o, p.
  split; [apply A5_ok; lra|]. split.
  { intros t _. split; [reflexivity|]. unfold back. destruct (Rleb _ _); lra. }
  split; [|auto].
  unfold sigma_ext. rewrite (proj2 (A5_scat 0 None back)), (proj1 (A5_scat 0 None back)).
  destruct back_values as (B0 & B1 & _ & B3 & _). rewrite B0, B1, B3.
  destruct eighths as (_ & _ & _ & H4). pose proof PI_RGT_0. cbn [a_cabs A5]. rewrite Rplus_0_r.
  apply Rmult_lt_0_compat; [|lra]. apply Rmult_lt_0_compat; [nra|lra].
Qed.
Print Assumptions C80_polarised_fraction_refuted.

(** ** C81: the detector's range *)

(** The detected angles run evenly between the refracted directions of
    theta_min and theta_max: Snell's law up to total internal reflection, the
    horizon beyond. *)
Theorem C81_detector_snell : forall n_medium n_sample theta, 0 < n_medium -> 0 < n_sample ->
  PI / 2 <= theta <= PI ->
  let inside := refracted_theta n_medium n_sample theta in
  PI / 2 <= inside <= PI
  /\ (sin (PI - theta) * n_medium < n_sample -> snell n_sample (PI - inside) n_medium (PI - theta))
  /\ (n_sample <= sin (PI - theta) * n_medium -> inside = PI / 2).
Proof.
  intros nm ns t Hm Hs Ht. exact (refracted_snell nm ns t Hm Hs Ht).
Qed.
Print Assumptions C81_detector_snell.

Theorem C81_detector_grid : forall A,
  even_grid (refracted_theta (a_nmedium A) (a_nsample A) (a_tmin A))
            (refracted_theta (a_nmedium A) (a_nsample A) (a_tmax A)) (a_num A) (detected_angles A).
Proof. intros A. apply linspace_even. Qed.
Print Assumptions C81_detector_grid.

(** An empty range detects only the front surface's reflection. *)
Theorem C81_empty_range : forall A dcs P S rp rs, geometry_ok A -> gives A dcs P S ->
  0 < sigma_ext A P S -> specular A rp rs -> a_tmin A = a_tmax A \/ a_pmin A = a_pmax A ->
  exists o, reflection_real A dcs = Ok o /\ r_par o = Some rp /\ r_perp o = Some rs.
Proof.
  intros A dcs P S rp rs G Hg Hx Hs Hr. destruct (gives_pos A dcs P S Hg) as (N & -> & E & E1 & E2).
  destruct (specular_fres A rp rs G Hs) as [<- <-].
  apply (empty_aperture A (pos P) (pos S)); try assumption. now rewrite E2.
Qed.
Print Assumptions C81_empty_range.

(** The scattered part is proportional to the azimuth range. *)
Theorem C81_azimuth : forall A dcs P S rp rs, geometry_ok A -> gives A dcs P S ->
  0 < sigma_ext A P S -> specular A rp rs ->
  exists cp cs, forall lo hi, lo <= hi ->
    exists o, reflection_real (with_phi A lo hi) dcs = Ok o
      /\ r_par o = Some (rp + cp * (hi - lo)) /\ r_perp o = Some (rs + cs * (hi - lo)).
Proof.
  intros A dcs P S rp rs G Hg Hx Hs. destruct (gives_pos A dcs P S Hg) as (N & _ & E & E1 & E2).
  destruct (specular_fres A rp rs G Hs) as [<- <-].
  destruct (azimuth_law A (pos P) (pos S) G N ltac:(now rewrite E2)) as (cp & cs & H).
  exists cp, cs. intros lo hi Hlh.
  destruct (gives_pos (with_phi A lo hi) dcs P S Hg) as (_ & -> & _). now apply H.
Qed.
Print Assumptions C81_azimuth.

(** A forward detector range should not count back-scattered light; the code
    folds theta and 180 degrees - theta together. *)
Theorem C81_forward_range_refuted : forall A dcs lo hi,
  reflection_real (with_theta A (PI - lo) (PI - hi)) dcs = reflection_real (with_theta A lo hi) dcs.
Proof. intros. apply theta_alias; now right. Qed.
Print Assumptions C81_forward_range_refuted.

Example C81_case : refracted_theta 1 1.5 (PI / 2) <> PI / 2 /\ refracted_theta 1.5 1 (PI / 2) = PI / 2.
Proof.
  pose proof PI_RGT_0.
  destruct (C81_detector_snell 1 1.5 (PI / 2)) as (H1 & H2 & H3); [lra|lra|lra|].
  destruct (C81_detector_snell 1.5 1 (PI / 2)) as (K1 & K2 & K3); [lra|lra|lra|].
  replace (PI - PI / 2) with (PI / 2) in * by field. rewrite sin_PI2 in *.
  split; [|apply K3; lra].
  intros E. specialize (H2 ltac:(lra)). unfold snell in H2. rewrite E in H2.
  replace (PI - PI / 2) with (PI / 2) in H2 by field. rewrite sin_PI2 in H2. lra.
Qed.

(** ** C82: number density *)

(** One kind of particle: density times particle volume is the volume fraction. *)
Theorem C82_density_one_species : forall vf radius radius2, 0 < Rmax_list radius ->
  reflection_rho vf radius radius2 None * sphere_volume (Rmax_list radius) = vf.
Proof. intros. now apply rho_mono. Qed.
Print Assumptions C82_density_one_species.

(** Two kinds: density times mean volume. *)
Theorem C82_density_two_species : forall vf radius radius2 c0 c1, 0 < c0 -> 0 < c1 -> c0 + c1 = 1 ->
  0 < Rmax_list radius -> 0 < Rmax_list radius2 ->
  reflection_rho vf radius radius2 (Some (c0, c1))
  * (c0 * sphere_volume (Rmax_list radius) + c1 * sphere_volume (Rmax_list radius2)) = vf.
Proof. intros. now apply rho_binary. Qed.
Print Assumptions C82_density_two_species.

(** Concentrations (1, 0) are handled, (0, 1) are not: the first radius is used
    although there are no particles of that kind. *)
Theorem C82_density_absent_second : forall vf radius radius2, 0 < Rmax_list radius ->
  reflection_rho vf radius radius2 (Some (1, 0)) * sphere_volume (Rmax_list radius) = vf.
Proof.
  intros vf r r2 H. unfold reflection_rho. rewrite (proj2 (Reqb_true 0 0)) by reflexivity.
  rewrite Bool.orb_true_r. now apply rho_mono.
Qed.
Print Assumptions C82_density_absent_second.
Theorem C82_density_absent_first_refuted : exists vf radius radius2,
  0 < vf < 1 /\ 0 < Rmax_list radius /\ 0 < Rmax_list radius2
  /\ reflection_rho vf radius radius2 (Some (0, 1)) * sphere_volume (Rmax_list radius2) <> vf.
Proof.
  exists (1 / 2), [1], [2]. cbn [Rmax_list fold_right]. rewrite !Rmax_left by lra.
  split; [lra|]. split; [lra|]. split; [lra|].
  unfold reflection_rho. rewrite (proj2 (Reqb_true 0 0)) by reflexivity. cbn [orb Rmax_list fold_right].
  rewrite !Rmax_left by lra. unfold number_density, sphere_volume. pose proof PI_RGT_0.
  replace (3 * (1 / 2) / (4 * PI * 1 ^ 3) * (4 / 3 * PI * 2 ^ 3)) with 4 by (field; lra). lra.
Qed.
Print Assumptions C82_density_absent_first_refuted.

Example C82_case : 0 < Rmax_list [0.1; 0.15] /\ 0 < 0.9 /\ 0.9 + 0.1 = 1.
Proof.
  split; [|lra]. cbn. eapply Rlt_le_trans; [|apply Rmax_l]. lra.
Qed.

(** ** C83: layers of a core-shell particle *)

(** Volume fractions of the layers add up to the particle's, each layer's being
    its share of the particle's volume. *)
Theorem C83_layers_sum : forall vf radius, radius <> [] -> last radius 0 <> 0 ->
  total (vf_array vf radius) = vf.
Proof. intros. now apply vf_array_sum. Qed.
Print Assumptions C83_layers_sum.

Theorem C83_layer_share : forall vf radius i, (i < length radius)%nat -> last radius 0 <> 0 ->
  length (vf_array vf radius) = length radius /\
  nth i (vf_array vf radius) 0 * sphere_volume (last radius 0)
  = vf * (sphere_volume (nth i radius 0)
          - sphere_volume (match i with O => 0 | S j => nth j radius 0 end)).
Proof.
  intros vf radius i Hi Hl. split; [apply layers_length|].
  unfold vf_array. rewrite layers_nth by exact Hi. unfold sphere_volume.
  set (b := nth i radius 0). set (a := match i with O => 0 | S j => nth j radius 0 end).
  set (r := last radius 0) in *. field. exact Hl.
Qed.
Print Assumptions C83_layer_share.

Example C83_case : total (vf_array 0.5 [1; 2]) = 0.5 /\ nth 0 (vf_array 0.5 [1; 2]) 0 = 0.0625.
Proof.
  split; [apply C83_layers_sum; [discriminate|cbn; lra]|]. cbn. lra.
Qed.

(** ** C84: which arguments are rejected *)

(** Different numbers of indices and radii, in any other circumstances. *)
Theorem C84_length_mismatch : forall fsolve factorial ang cabs absorbing I,
  length (i_nparticle I) <> length (i_radius I) ->
  reflection fsolve factorial ang cabs absorbing I = Err ValueError.
Proof.
  intros. unfold reflection. now rewrite (proj2 (Nat.eqb_neq _ _)) by assumption.
Qed.
Print Assumptions C84_length_mismatch.

(** An effective medium for the form factor without one for the structure
    factor always fails, with NameError. *)
Theorem C84_form_medium_alone : forall fsolve factorial ang cabs absorbing I,
  length (i_nparticle I) = length (i_radius I) -> i_emform I = true -> i_emstruct I = false ->
  reflection fsolve factorial ang cabs absorbing I = Err NameError.
Proof.
  intros fsolve factorial ang cabs absorbing I Hl Hf Hs. unfold reflection.
  rewrite Hl, Nat.eqb_refl, Hf, Hs. reflexivity.
Qed.
Print Assumptions C84_form_medium_alone.

Lemma poly_form_ext factorial (f g : R -> R) l : (forall d, f d = g d) -> poly_form factorial f l = poly_form factorial g l.
Proof.
  intros H. induction l as [|s l IH]; [reflexivity|]. cbn [poly_form]. rewrite IH. f_equal. unfold poly_integral.
  destruct (get_all _); [|reflexivity]. do 3 f_equal. apply map_ext. exact H.
Qed.

(** With effective_medium_form=False the Mie calculation is for particles in the
    matrix: another Mie theory that agrees at the ratios n_particle/n_matrix
    gives the same results.  With an effective medium for both, for particles in
    the effective medium. *)
Theorem C84_form_in_matrix : forall fsolve factorial ang ang' cabs cabs' absorbing I,
  i_emform I = false ->
  (let m := map (fun np => Cdiv np (i_nmatrix I)) (i_nparticle I) in
   (forall x t, ang m x t = ang' m x t) /\ (forall x, cabs m x = cabs' m x)) ->
  reflection fsolve factorial ang cabs absorbing I = reflection fsolve factorial ang' cabs' absorbing I.
Proof.
  intros fsolve factorial ang ang' cabs cabs' absorbing I Hf [Ha Hc]. unfold reflection.
  destruct (negb _); [reflexivity|]. rewrite Hf. unfold choose_sample.
  destruct (i_emstruct I); [destruct (n_eff _ _ _ _ _) as [z|]; [|reflexivity]|]; cbn [bind];
    (destruct (negb (Reqb (snd (i_nmatrix I)) 0)); [reflexivity|]; rewrite Hc; apply real_ext; intros t _;
     unfold differential_cross_section; f_equal; unfold form_part; destruct (i_form I) as [ft|]; [|reflexivity];
     rewrite Ha; destruct (String.eqb ft "sphere"); [reflexivity|]; destruct (String.eqb ft "polydisperse"); [|reflexivity];
     destruct (refl_poly _ _) as [[[l w] n]|]; [|reflexivity]; destruct (Nat.ltb 1 _); [reflexivity|];
     f_equal; f_equal; apply poly_form_ext; intros; now rewrite Ha).
Qed.
Print Assumptions C84_form_in_matrix.

Theorem C84_form_in_effective_medium : forall fsolve factorial ang ang' cabs cabs' absorbing I z,
  i_emform I = true -> i_emstruct I = true ->
  n_eff fsolve (i_mg I) (i_nparticle I) [i_nmatrix I] (vf_array (i_vf I) (i_radius I)) = Ok z ->
  (let m := map (fun np => Cdiv np z) (i_nparticle I) in
   (forall x t, ang m x t = ang' m x t) /\ (forall x, cabs m x = cabs' m x)) ->
  reflection fsolve factorial ang cabs absorbing I = reflection fsolve factorial ang' cabs' absorbing I.
Proof.
  intros fsolve factorial ang ang' cabs cabs' absorbing I z Hf Hs Hz [Ha Hc]. unfold reflection.
  destruct (negb _); [reflexivity|]. rewrite Hf, Hs, Hz. unfold choose_sample. cbn [bind].
  destruct (negb (Reqb (snd z) 0)); [reflexivity|]; rewrite Hc; apply real_ext; intros t _;
     unfold differential_cross_section; f_equal; unfold form_part; destruct (i_form I) as [ft|]; [|reflexivity];
     rewrite Ha; destruct (String.eqb ft "sphere"); [reflexivity|]; destruct (String.eqb ft "polydisperse"); [|reflexivity];
     destruct (refl_poly _ _) as [[[l w] n]|]; [|reflexivity]; destruct (Nat.ltb 1 _); [reflexivity|];
     f_equal; f_equal; apply poly_form_ext; intros; now rewrite Ha.
Qed.
Print Assumptions C84_form_in_effective_medium.

(** The differential cross section: unknown form factor, unknown structure
    factor, missing or impossible polydispersity. *)
Theorem C84_unknown_form : forall factorial ang n x x_eff vf st ft poly sdata theta,
  ft <> "sphere"%string -> ft <> "polydisperse"%string ->
  differential_cross_section factorial ang n x x_eff vf st (Some ft) poly sdata theta = Err ValueError.
Proof.
  intros. unfold differential_cross_section, form_part.
  rewrite (proj2 (String.eqb_neq _ _)) by assumption. rewrite (proj2 (String.eqb_neq _ _)) by assumption. reflexivity.
Qed.
Print Assumptions C84_unknown_form.

Theorem C84_unknown_structure : forall factorial ang n x x_eff vf st ft poly sdata theta,
  (match st with
   | S_name s => s <> "glass" /\ s <> "paracrystal" /\ s <> "data" /\ s <> "polydisperse"
   | S_dict name _ => name <> "paracrystal"
   | S_other => True
   | S_none => False end)%string ->
  differential_cross_section factorial ang n x x_eff vf st ft poly sdata theta = Err ValueError.
Proof.
  intros factorial ang n x x_eff vf st ft poly sdata theta H. unfold differential_cross_section.
  assert (F : form_part factorial ang n x ft poly theta = Err ValueError
              \/ exists f, form_part factorial ang n x ft poly theta = Ok f).
  { unfold form_part. destruct ft as [ft|]; [|right; eauto].
    destruct (String.eqb ft "sphere"); [right; eauto|]. destruct (String.eqb ft "polydisperse"); [|left; auto].
    destruct poly as [[[l w] nm]|]; [|left; auto]. destruct (Nat.ltb 1 n); [left; auto|right; eauto]. }
  destruct F as [-> |(f & ->)]; [reflexivity|]. cbn [bind].
  destruct st as [s|name sigma| |]; cbn [structure_part].
  - destruct H as (H1 & H2 & H3 & H4).
    rewrite !(proj2 (String.eqb_neq _ _)) by assumption. reflexivity.
  - rewrite (proj2 (String.eqb_neq _ _)) by assumption. reflexivity.
  - destruct H.
  - reflexivity.
Qed.
Print Assumptions C84_unknown_structure.

Theorem C84_polydisperse_arguments : forall factorial ang n x x_eff vf ft poly sdata theta,
  poly = None \/ (1 < n)%nat ->
  differential_cross_section factorial ang n x x_eff vf S_none (Some "polydisperse"%string) poly sdata theta
    = Err ValueError
  /\ (ft = None \/ ft = Some "sphere"%string ->
      differential_cross_section factorial ang n x x_eff vf (S_name "polydisperse") ft poly sdata theta
        = Err ValueError).
Proof.
  intros factorial ang n x x_eff vf ft poly sdata theta H. unfold differential_cross_section. split.
  - unfold form_part. change (String.eqb "polydisperse" "sphere") with false.
    change (String.eqb "polydisperse" "polydisperse") with true. cbv iota.
    destruct poly as [[[l w] nm]|]; [|reflexivity]. destruct H as [H|H]; [discriminate|].
    rewrite (proj2 (Nat.ltb_lt 1 n)) by exact H. reflexivity.
  - intros Hf.
    assert (S : structure_part n vf (qd_of (match x_eff with Some xe => xe | None => x end) theta)
                  (S_name "polydisperse") poly sdata = Err ValueError).
    { unfold structure_part. change (String.eqb "polydisperse" "glass") with false.
      change (String.eqb "polydisperse" "paracrystal") with false.
      change (String.eqb "polydisperse" "data") with false.
      change (String.eqb "polydisperse" "polydisperse") with true. cbv iota.
      destruct poly as [[[l w] nm]|]; [|reflexivity]. destruct H as [H|H]; [discriminate|].
      rewrite (proj2 (Nat.ltb_lt 1 n)) by exact H. reflexivity. }
    destruct Hf as [-> | ->]; cbn [form_part bind]; unfold form_part;
      change (String.eqb "sphere" "sphere") with true; cbv iota; cbn [bind]; rewrite S; reflexivity.
Qed.
Print Assumptions C84_polydisperse_arguments.

Example C84_case : differential_cross_section (fun _ => 1) (fun _ _ => (1, 1)) 1 [1] None 0.5
  (S_name "fcc") (Some "sphere"%string) None None 1 = Err ValueError.
Proof. apply C84_unknown_structure. repeat split; discriminate. Qed.

(** ** C85: the differential cross section is non-negative *)

(** For every accepted form and structure factor and every angle but 0, both
    polarisations are finite, non-negative and carry the same structure
    factor. *)
Theorem C85_cross_section_nonneg : forall factorial ang n x x_eff vf st ft poly sdata theta,
  form_ok factorial n ft poly -> structure_ok n vf st poly sdata ->
  (forall y t, 0 <= fst (ang y t) /\ 0 <= snd (ang y t)) ->
  Exists (fun a => a <> 0) (match x_eff with Some xe => xe | None => x end) -> 0 < theta <= PI ->
  exists S fp fs, 0 <= S /\ 0 <= fp /\ 0 <= fs
    /\ differential_cross_section factorial ang n x x_eff vf st ft poly sdata theta
       = Ok (Some (S * fp), Some (S * fs))
    /\ differential_cross_section factorial ang n x x_eff vf st None poly sdata theta = Ok (Some S, Some S)
    /\ differential_cross_section factorial ang n x x_eff vf S_none ft poly sdata theta = Ok (Some fp, Some fs).
Proof.
  intros factorial ang n x x_eff vf st ft poly sdata theta Hf Hs Ha Hx Ht.
  destruct (dcs_ok factorial ang n x x_eff vf st ft poly sdata theta Hf Hs Ha Hx Ht)
    as (S & fp & fs & S0 & P0 & Q0 & Es & Ef & E).
  exists S, fp, fs. repeat (split; [assumption|]). split.
  - unfold differential_cross_section. cbn [form_part bind fst snd]. rewrite Es. cbn. now rewrite Rmult_1_r.
  - unfold differential_cross_section. rewrite Ef. cbn. now rewrite !Rmult_1_l.
Qed.
Print Assumptions C85_cross_section_nonneg.

(** Forward scattering with the hard-sphere structure factor is NaN, so
    small_angle=0 makes every returned number NaN. *)
Theorem C85_forward_glass_nan : forall factorial ang n x vf ft sdata,
  ft = None \/ ft = Some "sphere"%string ->
  differential_cross_section factorial ang n x None vf (S_name "glass") ft None sdata 0 = Ok (None, None).
Proof.
  intros factorial ang n x vf ft sdata H. unfold differential_cross_section.
  assert (Q : qd_of x 0 = 0) by (unfold qd_of; replace (0 / 2) with 0 by field; rewrite sin_0; ring).
  rewrite Q. destruct H as [-> | ->]; cbn; unfold factor_py;
    rewrite (proj2 (Reqb_true 0 0)) by reflexivity; reflexivity.
Qed.
Print Assumptions C85_forward_glass_nan.

(** The whole of [reflection] for a non-absorbing sample: with an angular
    distribution and absorption that are not negative it never raises; either
    there is nothing that scatters or absorbs (NaN), or it returns finite
    numbers, the unpolarised one the average of the others, none below the front
    surface's reflectance. *)
Theorem C85_reflection_succeeds : forall fsolve factorial ang cabs absorbing I n ne,
  inputs_ok factorial I n ne -> sample_is fsolve I n ne ->
  (forall m y t, 0 <= fst (ang m y t) /\ 0 <= snd (ang m y t)) -> (forall m y, 0 <= cabs m y) ->
  exists o rp rs, reflection fsolve factorial ang cabs absorbing I = Ok o
    /\ fresnel_reflection (i_nmedium I) n [i_inc I] = Ok ([rp], [rs])
    /\ ((r_par o = None /\ r_perp o = None /\ r_unpol o = None /\ exists m y, cabs m y = 0)
        \/ exists p s, r_par o = Some p /\ r_perp o = Some s /\ r_unpol o = Some ((p + s) / 2)
             /\ 0 <= rp <= p /\ 0 <= rs <= s).
Proof.
  intros fsolve factorial ang cabs absorbing I n ne HI Hs Ha Hc.
  destruct (reflection_gives fsolve factorial ang cabs absorbing I n ne HI Hs Ha Hc)
    as (A & dcs & P & S & Er & G & Hg & E1 & E2 & E3 & E4 & _ & _ & _ & _ & _ & E5).
  pose proof (specular_exists A G) as Sp.
  destruct (gives_pos A dcs P S Hg) as (N & Ep & _ & Q1 & Q2).
  pose proof (scat_nonneg A _ _ G N) as S0.
  assert (C0 : 0 <= a_cabs A) by apply G.
  destruct (Req_dec (sigma_ext A (pos P) (pos S)) 0) as [Z|Z].
  - assert (Zp : forall r d, refl_pol A (pos P) (pos S) r d = None).
    { intros r d. unfold refl_pol, thick_factor, cext. rewrite cscat_sigma by exact G.
      fold (sigma_ext A (pos P) (pos S)). rewrite Z. unfold ndiv.
      rewrite (proj2 (Reqb_true 0 0)) by reflexivity. destruct (a_thickness A); reflexivity. }
    rewrite Er, Ep. eexists _, (fst (fres A)), (snd (fres A)).
    split; [apply geometry_value; exact G|]. unfold specular in Sp. rewrite E1, E2, E3 in Sp.
    split; [exact Sp|]. left. cbn [r_par r_perp r_unpol]. rewrite !Zp. repeat (split; [reflexivity|]).
    eexists _, _. rewrite <- E5. unfold sigma_ext in Z. lra.
  - assert (X : 0 < sigma_ext A P S) by (rewrite <- Q2; unfold sigma_ext in *; lra).
    destruct (C80_average_of_polarisations A dcs P S (fst (fres A)) (snd (fres A)) G Hg X)
      as (o & p & s & H1 & H2 & H3 & H4 & H5 & H6).
    + rewrite E4. apply HI.
    + exact Sp.
    + exists o, (fst (fres A)), (snd (fres A)). rewrite Er. split; [exact H1|].
      unfold specular in Sp. rewrite E1, E2, E3 in Sp. split; [exact Sp|]. right. exists p, s. auto 10.
Qed.
Print Assumptions C85_reflection_succeeds.

Definition glass_film : refl_in :=
  mk_rin [RtoC 1.5] (RtoC 1) 1 0.5 [0.1] 0.5 None None None (Some 10) (PI / 2) PI 0 (2 * PI) 0 200 0.1
    (S_name "glass") (Some "sphere"%string) false None false false.
Example C85_case : inputs_ok (fun _ => 1) glass_film 1 None
  /\ forall fsolve, sample_is fsolve glass_film 1 None.
Proof.
  pose proof PI_RGT_0. pose proof PI2_3_2. split; [|intros fsolve; reflexivity].
  unfold inputs_ok, glass_film; cbn.
  split; [reflexivity|]. split; [discriminate|]. split; [constructor; [lra|constructor]|].
  split; [discriminate|]. split; [discriminate|]. split; [lra|]. split; [discriminate|].
  split; [lra|]. split; [lra|]. split; [lra|].
  split; [intros L E; injection E as <-; lra|].
  do 4 (split; [lra|]). split; [split; lra|]. split; [split; lra|].
  split; [right; left; reflexivity|]. left. split; [reflexivity|]. split; lra.
Qed.

(** ** C86: polydisperse form factor *)

(** It lies between the smallest and the largest monodisperse value at the
    diameters within three standard deviations, times the sum of the
    concentrations. *)
Theorem C86_poly_is_average : forall factorial f l lo hi,
  (forall s, In s l -> species_ok factorial s) ->
  (forall s d, In s l -> 0 <= d -> Rabs (d - sp_d s) <= 3 * width (sp_pdi s) * sp_d s -> lo <= f d <= hi) ->
  exists v, poly_form factorial f l = Some v
    /\ lo * fold_right Rplus 0 (map sp_c l) <= v <= hi * fold_right Rplus 0 (map sp_c l).
Proof. exact poly_form_avg. Qed.
Print Assumptions C86_poly_is_average.

(** The average does not depend on the unit of length, if the distribution does
    not reach below zero ... *)
Theorem C86_unit_free_partial : forall factorial f lam mean pdi, 0 < lam -> 0 < mean ->
  width pdi <= 1 / 3 -> 0 < factorial (pdi_t pdi) ->
  poly_integral factorial (fun d => f (d / lam)) (lam * mean) (pdi_t pdi)
  = poly_integral factorial f mean (pdi_t pdi).
Proof. exact unit_free. Qed.
Print Assumptions C86_unit_free_partial.

(** ... but a broader one is cut off at 1e-6 in the caller's unit.  100 nm
    spheres of polydispersity 1/2, diameters given in micrometres and in metres;
    f picks diameters above 250 nm. *)
Theorem C86_unit_free_refuted : exists factorial f mean pdi lam v,
  0 < mean /\ 0 < lam /\ pdi = 1 / 2 /\ 0 < factorial (pdi_t pdi)
  /\ poly_integral factorial f mean (pdi_t pdi) = Some 0
  /\ poly_integral factorial (fun d => f (d / lam)) (lam * mean) (pdi_t pdi) = Some v /\ 0 < v.
Proof.
  destruct unit_dependent as [H1 (v & H2 & H3)].
  eexists _, _, 0.1, (1 / 2), 1e-6, v. split; [lra|]. split; [lra|]. split; [reflexivity|].
  split; [|split; [exact H1|split; [exact H2|exact H3]]]. cbn. lra.
Qed.
Print Assumptions C86_unit_free_refuted.

Example C86_case : species_ok (fun _ => 1) (mkSp 1 0.2 0.05)
  /\ exists v, poly_form (fun _ => 1) (fun d => d) [mkSp 1 0.2 0.05] = Some v /\ 0.17 <= v <= 0.23.
Proof.
  assert (W : width 0.05 = 0.05) by (unfold width; rewrite Rmax_left; lra).
  assert (S : species_ok (fun _ => 1) (mkSp 1 0.2 0.05)).
  { unfold species_ok; cbn [sp_c sp_d sp_pdi]. rewrite W. repeat split; try lra. }
  split; [exact S|].
  destruct (C86_poly_is_average (fun _ => 1) (fun d => d) [mkSp 1 0.2 0.05] 0.17 0.23) as (v & Ev & Bv).
  - intros s [<-|[]]. exact S.
  - intros s d [<-|[]] _ H. cbn [sp_d sp_pdi] in H. rewrite W in H.
    apply Coquelicot.Rcomplements.Rabs_le_between in H. lra.
  - exists v. split; [exact Ev|]. cbn in Bv. lra.
Qed.
