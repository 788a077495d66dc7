(** From a differential cross section to functions that are non-negative
    everywhere; concrete cases. *)
From Verif Require Import Num Spec Spec_scatter L_num L_trapezoid M_model M_montecarlo M_reflection Spec_reflection
  L_montecarlo2 L_fresnel L_slots L_reflection L_reflection2 L_reflection3.
From Coq Require Import Lia Lra.
Open Scope R_scope.

Definition pos (P : R -> R) (t : R) : R := Rmax 0 (P t).

Lemma all_angles_ext {B} (f h : R -> result B) l : (forall t, In t l -> f t = h t) ->
  all_angles f l = all_angles h l.
Proof.
  induction l as [|t l IH]; intros H; [reflexivity|]. cbn.
  rewrite (H t) by now left. rewrite IH by (intros; apply H; now right). reflexivity.
Qed.

Lemma real_ext A f h : (forall t, In t (detected_angles A) \/ In t (total_angles A) -> f t = h t) ->
  reflection_real A f = reflection_real A h.
Proof.
  intros H. unfold reflection_real.
  rewrite (all_angles_ext f h (detected_angles A)) by (intros; apply H; now left).
  rewrite (all_angles_ext f h (total_angles A)) by (intros; apply H; now right). reflexivity.
Qed.

Lemma gives_pos A dcs P S : gives A dcs P S ->
  nonneg_cs (pos P) (pos S)
  /\ reflection_real A dcs = reflection_real A (dcs_of (pos P) (pos S))
  /\ (forall t, In t (detected_angles A) \/ In t (total_angles A) -> pos P t = P t /\ pos S t = S t)
  /\ sigma_scat A (pos P) (pos S) = sigma_scat A P S
  /\ sigma_ext A (pos P) (pos S) = sigma_ext A P S.
Proof.
  intros H.
  assert (E : forall t, In t (detected_angles A) \/ In t (total_angles A) -> pos P t = P t /\ pos S t = S t).
  { intros t Ht. destruct (H t Ht) as (_ & H1 & H2). unfold pos. rewrite !Rmax_right by assumption. auto. }
  assert (Es : sigma_scat A (pos P) (pos S) = sigma_scat A P S).
  { unfold sigma_scat. apply sigma_ext_fun. intros t Ht. unfold unpol.
    destruct (E t (or_intror Ht)) as [-> ->]. reflexivity. }
  split; [|split; [|split; [exact E|split; [exact Es|]]]].
  - intros t _. unfold pos. split; apply Rmax_l.
  - apply real_ext. intros t Ht. destruct (H t Ht) as [-> _]. unfold dcs_of.
    destruct (E t Ht) as [-> ->]. reflexivity.
  - unfold sigma_ext. now rewrite Es.
Qed.

Lemma gives_thickness A dcs P S th : gives A dcs P S <-> gives (with_thickness A th) dcs P S.
Proof. reflexivity. Qed.

Lemma specular_fres A rp rs : geometry_ok A -> specular A rp rs -> fst (fres A) = rp /\ snd (fres A) = rs.
Proof.
  intros G H. unfold specular in H. rewrite fresnel_reflection_ok in H.
  - cbn in H. injection H as H1 H2. auto.
  - intros t [<-|[]]. apply G.
Qed.

Lemma specular_exists A : geometry_ok A -> specular A (fst (fres A)) (snd (fres A)).
Proof.
  intros G. unfold specular. rewrite fresnel_reflection_ok; [reflexivity|].
  intros t [<-|[]]. apply G.
Qed.

(** ** Index-matched cases *)

Lemma refl1_matched n t : 0 < n -> 0 <= t < PI / 2 -> fresnel_refl1 n n t = (0, 0).
Proof.
  intros Hn Ht. pose proof (fresnel_no_contrast n t Hn Ht) as F.
  rewrite fresnel_reflection_ok in F by (intros x [<-|[]]; lra).
  cbn in F. injection F as E1 E2. rewrite (surjective_pairing (fresnel_refl1 n n t)). congruence.
Qed.

Lemma refl1_grazing n : 0 < n -> fresnel_refl1 n n (PI / 2) = (1, 1).
Proof.
  intros Hn. unfold fresnel_refl1.
  replace (n / n) with 1 by (field; lra). rewrite (proj2 (Rltb_false 1 1)) by lra. cbn [andb].
  rewrite sin_PI2, cos_PI2.
  replace (n ^ 2 - (n * 1) ^ 2) with 0 by ring. rewrite Rabs_R0, sqrt_0.
  unfold abs_ratio_sq. rewrite !Rmult_0_r, !Rplus_0_r.
  rewrite (proj2 (Reqb_true 0 0)) by reflexivity. reflexivity.
Qed.

Lemma refracted_matched t : PI / 2 <= t <= PI -> refracted_theta 1 1 t = t.
Proof.
  intros Ht. pose proof PI_RGT_0. unfold refracted_theta. rewrite Rabs_R1.
  replace (sin (PI - t) * 1 / 1) with (sin (PI - t)) by field.
  destruct (Rleb 1 (sin (PI - t))) eqn:E.
  - apply Rleb_true in E. destruct (Req_dec t (PI / 2)) as [->|N]; [lra|].
    pose proof (sin_increasing_1 (PI - t) (PI / 2) ltac:(lra) ltac:(lra) ltac:(lra) ltac:(lra) ltac:(lra)) as L.
    rewrite sin_PI2 in L. lra.
  - rewrite asin_sin by lra. ring.
Qed.

(** An index-matched film, k = 1, five angles, full backward detector. *)
Definition A5 (cabs : R) (th : option R) : refl_args :=
  mk_rargs 1 1 (2 * PI) 1 cabs th (PI / 2) PI 0 (2 * PI) 0 5 0.
Definition back (t : R) : R := if Rleb (PI / 2) t then 1 else 0.

Lemma A5_ok cabs th : 0 <= cabs -> geometry_ok (A5 cabs th).
Proof. intros H. pose proof PI_RGT_0. unfold geometry_ok, A5; cbn. repeat split; lra. Qed.

Lemma A5_k cabs th : wavenumber (A5 cabs th) = 1.
Proof. unfold wavenumber, A5; cbn. pose proof PI_RGT_0. field. lra. Qed.

Lemma A5_det cabs th :
  detected_angles (A5 cabs th) = [PI / 2; 5 * PI / 8; 3 * PI / 4; 7 * PI / 8; PI].
Proof.
  pose proof PI_RGT_0. unfold detected_angles, A5. cbn [a_nmedium a_nsample a_tmin a_tmax a_num].
  rewrite !refracted_matched by lra. unfold linspace. cbn. f_equal; [|f_equal; [|f_equal; [|f_equal; [|f_equal]]]]; field.
Qed.

Lemma A5_tot cabs th :
  total_angles (A5 cabs th) = [0; PI / 4; PI / 2; 3 * PI / 4; PI].
Proof.
  unfold total_angles, A5. cbn [a_small a_num].
  unfold linspace. cbn. f_equal; [|f_equal; [|f_equal; [|f_equal; [|f_equal]]]]; field.
Qed.

Lemma A5_fres cabs th : fres (A5 cabs th) = (0, 0).
Proof. unfold fres, A5; cbn. apply refl1_matched; pose proof PI_RGT_0; lra. Qed.

Lemma A5_T cabs th t : PI / 2 < t <= PI -> Tpar (A5 cabs th) t = 1 /\ Tperp (A5 cabs th) t = 1.
Proof.
  intros H. unfold Tpar, Tperp, A5. cbn [a_nsample a_nmedium]. rewrite refl1_matched by lra. cbn. lra.
Qed.
Lemma A5_T0 cabs th : Tpar (A5 cabs th) (PI / 2) = 0 /\ Tperp (A5 cabs th) (PI / 2) = 0.
Proof.
  unfold Tpar, Tperp, A5. cbn [a_nsample a_nmedium]. replace (PI - PI / 2) with (PI / 2) by field.
  rewrite refl1_grazing by lra. cbn. lra.
Qed.

Lemma A5_detected cabs th Q :
  det_cs (A5 cabs th) Q (Tpar (A5 cabs th))
  = 2 * PI * (PI / 8) * (Q (5 * PI / 8) * sin (5 * PI / 8) + Q (3 * PI / 4) * sin (3 * PI / 4)
                         + Q (7 * PI / 8) * sin (7 * PI / 8))
  /\ det_cs (A5 cabs th) Q (Tperp (A5 cabs th)) = det_cs (A5 cabs th) Q (Tpar (A5 cabs th)).
Proof.
  pose proof PI_RGT_0 as HP.
  unfold det_cs. rewrite !A5_det. unfold k2_of. fold (wavenumber (A5 cabs th)). rewrite A5_k.
  cbn [trap_int a_pmax a_pmin A5].
  destruct (A5_T0 cabs th) as [T0 T0']. fold (A5 cabs th) in *.
  destruct (A5_T cabs th (5 * PI / 8) ltac:(lra)) as [T1 T1'].
  destruct (A5_T cabs th (3 * PI / 4) ltac:(lra)) as [T2 T2'].
  destruct (A5_T cabs th (7 * PI / 8) ltac:(lra)) as [T3 T3'].
  rewrite T0, T1, T2, T3, T0', T1', T2', T3', sin_PI. split; field.
Qed.

Lemma A5_scat cabs th Q : sigma_scat (A5 cabs th) Q Q
  = 2 * PI * (PI / 4) * (Q (PI / 4) * sin (PI / 4) + Q (PI / 2) + Q (3 * PI / 4) * sin (3 * PI / 4))
  /\ sigma_scat (A5 cabs th) Q (fun _ => 0) = sigma_scat (A5 cabs th) Q Q / 2.
Proof.
  unfold sigma_scat, cross_sec, unpol. rewrite A5_tot, A5_k. cbn [trap_int].
  rewrite sin_0, sin_PI, sin_PI2. split; field.
Qed.

Lemma back_values : back (PI / 4) = 0 /\ back (PI / 2) = 1 /\ back (5 * PI / 8) = 1
  /\ back (3 * PI / 4) = 1 /\ back (7 * PI / 8) = 1.
Proof.
  pose proof PI_RGT_0. unfold back.
  rewrite (proj2 (Rleb_false (PI / 2) (PI / 4))) by lra.
  rewrite !(proj2 (Rleb_true _ _)) by lra. auto.
Qed.

Lemma back_nonneg : nonneg_cs back (fun _ => 0) /\ nonneg_cs back back.
Proof. split; intros t _; unfold back; destruct (Rleb _ _); lra. Qed.

Lemma eighths : 1 < sin (5 * PI / 8) + sin (7 * PI / 8) /\ 0 < sin (5 * PI / 8) <= 1 /\ 0 < sin (7 * PI / 8) <= 1
  /\ 0 < sin (3 * PI / 4) <= 1.
Proof.
  pose proof PI_RGT_0.
  assert (E1 : sin (5 * PI / 8) = cos (PI / 8)).
  { rewrite <- sin_shift. replace (PI / 2 - PI / 8) with (PI - 5 * PI / 8) by field. now rewrite sin_PI_x. }
  assert (E2 : sin (7 * PI / 8) = sin (PI / 8)).
  { rewrite <- (sin_PI_x (PI / 8)). f_equal. field. }
  assert (C : 0 < cos (PI / 8)) by (apply cos_gt_0; lra).
  assert (S : 0 < sin (PI / 8)) by (apply sin_gt_0; lra).
  assert (S3 : 0 < sin (3 * PI / 4)) by (apply sin_gt_0; lra).
  pose proof (sin2_cos2 (PI / 8)) as SC. unfold Rsqr in SC.
  pose proof (SIN_bound (5 * PI / 8)). pose proof (SIN_bound (7 * PI / 8)). pose proof (SIN_bound (3 * PI / 4)).
  rewrite E1, E2 in *. repeat split; try lra. nra.
Qed.

(** Light scattered backwards in the parallel polarisation only. *)
Lemma polarised_above_one : exists o p, reflection_real (A5 0 None) (dcs_of back (fun _ => 0)) = Ok o
  /\ r_par o = Some p /\ 1 < p /\ r_perp o = Some 0 /\ r_unpol o = Some (p / 2).
Proof.
  set (A := A5 0 None). assert (G : geometry_ok A) by (apply A5_ok; lra). pose proof PI_RGT_0 as HP.
  destruct back_values as (B0 & B1 & B2 & B3 & B4). destruct eighths as (H1 & H2 & H3 & H4).
  assert (Es : sigma_ext A back (fun _ => 0) = PI * (PI / 4) * (1 + sin (3 * PI / 4))).
  { unfold sigma_ext, A. rewrite (proj2 (A5_scat 0 None back)), (proj1 (A5_scat 0 None back)).
    rewrite B0, B1, B3. cbn. field. }
  assert (Px : 0 < sigma_ext A back (fun _ => 0)).
  { rewrite Es. apply Rmult_lt_0_compat; [nra|lra]. }
  assert (EA : with_thickness A None = A) by reflexivity.
  assert (Ed : det_cs A back (Tpar A) = 2 * PI * (PI / 8) * (sin (5 * PI / 8) + sin (3 * PI / 4) + sin (7 * PI / 8))).
  { unfold A. rewrite (proj1 (A5_detected 0 None back)), B2, B3, B4. ring. }
  assert (Ed0 : det_cs A (fun _ => 0) (Tperp A) = 0).
  { unfold det_cs. rewrite (trap_int_ext _ (fun _ => 0)) by (intros; unfold Rdiv; ring). rewrite trap_int_zero. ring. }
  set (D := det_cs A back (Tpar A)) in *. set (X := sigma_ext A back (fun _ => 0)) in *.
  assert (F : fres A = (0, 0)) by apply A5_fres.
  assert (Rp : refl_pol A back (fun _ => 0) 0 D = Some (D / X)).
  { rewrite <- EA at 1. rewrite refl_pol_infinite by (try exact G; fold X; lra). fold X. f_equal. field. lra. }
  assert (R0 : refl_pol A back (fun _ => 0) 0 0 = Some 0).
  { rewrite <- EA at 1. rewrite refl_pol_infinite by (try exact G; fold X; lra). fold X. f_equal. field. lra. }
  assert (H : 1 < D / X).
  { apply (Rmult_lt_reg_r X); [exact Px|]. unfold Rdiv. rewrite Rmult_assoc, Rinv_l by lra. nra. }
  eexists _, (D / X). split; [apply geometry_value; exact G|]. cbn [r_par r_perp r_unpol].
  rewrite F, Ed0. fold D. cbn [fst snd]. rewrite Rp, R0. cbn [nmap2].
  split; [reflexivity|]. split; [exact H|]. split; [reflexivity|]. f_equal. field. lra.
Qed.
