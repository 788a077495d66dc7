(** Lemmas about the single-scattering reflectance. *)
From Verif Require Import Num Spec Spec_scatter L_num L_trapezoid M_model M_montecarlo M_reflection
  L_montecarlo2 L_fresnel L_slots.
From Coq Require Import Lia Lra.
Open Scope R_scope.

(** ** Integrals *)

Lemma integrate_pts cs fac ang azi : length cs = length ang -> length fac = length ang ->
  integrate_cross_section cs fac ang azi
  = azi * trap_pts (combine ang (map3 (fun c f t => c * f * sin t) cs fac ang)).
Proof.
  intros H1 H2. unfold integrate_cross_section. rewrite trapezoid_pts; [reflexivity|].
  revert cs fac H1 H2. induction ang as [|t ang IH]; intros [|c cs] [|f fac] H1 H2; cbn in *; try lia.
  rewrite IH; lia.
Qed.

Lemma integrate_map P F g azi :
  integrate_cross_section (map P g) (map F g) g azi = azi * trap_int (fun t => P t * F t * sin t) g.
Proof.
  unfold integrate_cross_section. rewrite <- (map_id g) at 3.
  rewrite (map3_maps (fun c f t => c * f * sin t) P F (fun t => t)).
  now rewrite trapezoid_map.
Qed.

Lemma map3_plus_l c1 c2 f a : length c1 = length c2 ->
  map3 (fun c f t => c * f * sin t) (map2 Rplus c1 c2) f a
  = map2 Rplus (map3 (fun c f t => c * f * sin t) c1 f a) (map3 (fun c f t => c * f * sin t) c2 f a).
Proof.
  revert c2 f a. induction c1 as [|x c1 IH]; intros [|y c2] [|z f] [|t a] H; cbn in *; try lia; try reflexivity.
  rewrite IH by lia. f_equal. ring.
Qed.

Lemma map3_scale_l k c f a :
  map3 (fun c f t => c * f * sin t) (map (Rmult k) c) f a
  = map (Rmult k) (map3 (fun c f t => c * f * sin t) c f a).
Proof.
  revert f a. induction c as [|x c IH]; intros [|z f] [|t a]; cbn in *; try reflexivity.
  rewrite IH. f_equal. ring.
Qed.

Lemma map3_length_l c1 c2 f a : length c1 = length c2 ->
  length (map3 (fun c f t => c * f * sin t) c1 f a) = length (map3 (fun c f t => c * f * sin t) c2 f a).
Proof.
  revert c2 f a. induction c1 as [|x c1 IH]; intros [|y c2] [|z f] [|t a] H; cbn in *; try lia; try reflexivity.
  rewrite (IH c2) by lia. reflexivity.
Qed.

Lemma integrate_plus c1 c2 f a azi : length c1 = length c2 ->
  integrate_cross_section (map2 Rplus c1 c2) f a azi
  = integrate_cross_section c1 f a azi + integrate_cross_section c2 f a azi.
Proof.
  intros H. unfold integrate_cross_section. rewrite map3_plus_l by exact H.
  rewrite trapezoid_plus by now apply map3_length_l. ring.
Qed.

Lemma integrate_scale k c f a azi :
  integrate_cross_section (map (Rmult k) c) f a azi = k * integrate_cross_section c f a azi.
Proof. unfold integrate_cross_section. rewrite map3_scale_l, trapezoid_scale. ring. Qed.

Lemma integrate_nonneg c f a azi : 0 <= azi -> ascending a ->
  Forall (fun t => 0 <= t <= PI) a -> Forall (fun x => 0 <= x) c -> Forall (fun x => 0 <= x) f ->
  0 <= integrate_cross_section c f a azi.
Proof.
  intros Hz Ha Hr Hc Hf. unfold integrate_cross_section. apply Rmult_le_pos; [exact Hz|].
  apply trapezoid_nonneg; [exact Ha|]. clear Ha Hz.
  revert c f Hc Hf. induction a as [|t a IH]; intros [|x c] [|y f] Hc Hf; cbn; try constructor.
  - inversion Hr; inversion Hc; inversion Hf; subst.
    apply Rmult_le_pos; [now apply Rmult_le_pos|]. apply sin_ge_0; tauto.
  - inversion Hr; inversion Hc; inversion Hf; subst. now apply IH.
Qed.

Lemma combine_app_mid {A B} (a1 : list A) (b1 : list B) x y a2 b2 : length a1 = length b1 ->
  combine (a1 ++ x :: a2) (b1 ++ y :: b2) = combine a1 b1 ++ (x, y) :: combine a2 b2.
Proof. revert b1. induction a1 as [|a a1 IH]; intros [|b b1] H; cbn in *; try lia; [reflexivity|]. now rewrite IH by lia. Qed.

Lemma map3_app_mid {A B1 B2 D} (h : A -> B1 -> B2 -> D) a1 x a2 b1 y b2 c1 z c2 :
  length a1 = length c1 -> length b1 = length c1 ->
  map3 h (a1 ++ x :: a2) (b1 ++ y :: b2) (c1 ++ z :: c2)
  = map3 h a1 b1 c1 ++ h x y z :: map3 h a2 b2 c2.
Proof.
  revert b1 c1. induction a1 as [|a a1 IH]; intros [|b b1] [|c c1] H1 H2; cbn in *; try lia; [reflexivity|].
  now rewrite IH by lia.
Qed.

Lemma map3_length {A B1 B2 D} (h : A -> B1 -> B2 -> D) a b c :
  length a = length c -> length b = length c -> length (map3 h a b c) = length c.
Proof.
  revert b c. induction a as [|x a IH]; intros [|y b] [|z c] H1 H2; cbn in *; try lia. now rewrite IH by lia.
Qed.

Lemma integrate_split c1 x c2 f1 y f2 a1 t a2 azi :
  length c1 = length a1 -> length f1 = length a1 -> length c2 = length a2 -> length f2 = length a2 ->
  integrate_cross_section (c1 ++ x :: c2) (f1 ++ y :: f2) (a1 ++ t :: a2) azi
  = integrate_cross_section (c1 ++ [x]) (f1 ++ [y]) (a1 ++ [t]) azi
    + integrate_cross_section (x :: c2) (y :: f2) (t :: a2) azi.
Proof.
  intros H1 H2 H3 H4. rewrite !integrate_pts by (rewrite ?app_length; cbn; lia).
  rewrite !map3_app_mid by assumption.
  rewrite !combine_app_mid by (rewrite map3_length by assumption; reflexivity).
  rewrite trap_pts_split. cbn [map3 combine]. lra.
Qed.

(** ** Angles *)

Lemma linspace_lower a b c n t : c <= a -> c <= b -> In t (linspace a b n) -> c <= t.
Proof.
  intros Ha Hb H. destruct (Rle_dec a b) as [Hab|Hab].
  - pose proof (linspace_in a b n t Hab H). lra.
  - unfold linspace in H. apply in_map_iff in H as [i [<- Hi]]. apply in_seq in Hi.
    destruct (Nat.eq_dec n 1) as [->|Hn].
    + replace i with 0%nat by lia. cbn. lra.
    + assert (D : 0 < INR (n - 1)) by (apply lt_0_INR; lia).
      assert (L : INR i <= INR (n - 1)) by (apply le_INR; lia).
      assert (E : INR i * ((a - b) / INR (n - 1)) <= a - b).
      { replace (a - b) with (INR (n - 1) * ((a - b) / INR (n - 1))) at 2 by (field; lra).
        apply Rmult_le_compat_r; [|exact L].
        unfold Rdiv. apply Rmult_le_pos; [lra|]. left. now apply Rinv_0_lt_compat. }
      replace (INR i * ((b - a) / INR (n - 1))) with (- (INR i * ((a - b) / INR (n - 1)))) by (field; lra).
      lra.
Qed.

Lemma refracted_range nm ns th : 0 < nm -> 0 < ns -> 0 <= th <= PI ->
  PI / 2 <= refracted_theta nm ns th <= PI.
Proof.
  intros Hm Hs Ht. unfold refracted_theta.
  rewrite (Rabs_pos_eq ns) by lra.
  assert (P0 : 0 <= sin (PI - th) * nm / ns).
  { unfold Rdiv. apply Rmult_le_pos; [|left; now apply Rinv_0_lt_compat].
    apply Rmult_le_pos; [|lra]. apply sin_ge_0; lra. }
  pose proof PI_RGT_0.
  destruct (Rleb 1 _) eqn:E; [lra|]. apply Rleb_false in E.
  set (s := sin (PI - th) * nm / ns) in *.
  pose proof (asin_bound s). pose proof asin_0.
  destruct (Req_dec s 0) as [->|Hne]; [lra|].
  pose proof (asin_increasing 0 s ltac:(lra) ltac:(lra) ltac:(lra)). lra.
Qed.

Lemma refracted_mono nm ns a b : 0 < nm -> 0 < ns -> PI / 2 <= a -> a <= b -> b <= PI ->
  refracted_theta nm ns a <= refracted_theta nm ns b.
Proof.
  intros Hm Hs Ha Hab Hb. pose proof PI_RGT_0.
  destruct (Req_dec a b) as [->|Hne]; [lra|].
  assert (Hsin : sin (PI - b) <= sin (PI - a)) by (left; apply sin_increasing_1; lra).
  pose proof (refracted_range nm ns b Hm Hs ltac:(lra)) as Rb.
  unfold refracted_theta in *. rewrite (Rabs_pos_eq ns) in * by lra.
  set (sa := sin (PI - a) * nm / ns). set (sb := sin (PI - b) * nm / ns) in *.
  assert (Hs2 : sb <= sa).
  { unfold sa, sb, Rdiv. apply Rmult_le_compat_r; [left; now apply Rinv_0_lt_compat|].
    apply Rmult_le_compat_r; lra. }
  assert (P0 : 0 <= sb).
  { unfold sb, Rdiv. apply Rmult_le_pos; [|left; now apply Rinv_0_lt_compat].
    apply Rmult_le_pos; [|lra]. apply sin_ge_0; lra. }
  destruct (Rleb 1 sa) eqn:Ea; [exact (proj1 Rb)|]. apply Rleb_false in Ea.
  rewrite (proj2 (Rleb_false 1 sb)) by lra.
  destruct (Req_dec sa sb) as [E|Hn2]; [rewrite E; lra|].
  pose proof (asin_increasing sb sa ltac:(lra) ltac:(lra) ltac:(lra)). lra.
Qed.

(** ** The closed form of the result *)

Definition k2_of (A : refl_args) : R := (2 * PI * a_nsample A / a_wavelen A) ^ 2.
Definition Tpar (A : refl_args) (t : R) : R := 1 - fst (fresnel_refl1 (a_nsample A) (a_nmedium A) (PI - t)).
Definition Tperp (A : refl_args) (t : R) : R := 1 - snd (fresnel_refl1 (a_nsample A) (a_nmedium A) (PI - t)).
Definition det_cs (A : refl_args) (Q T : R -> R) : R :=
  (a_pmax A - a_pmin A) * trap_int (fun t => Q t * (T t / k2_of A) * sin t) (detected_angles A).
Definition tot_cs (A : refl_args) (Q w : R -> R) : R :=
  2 * PI * trap_int (fun t => Q t * (w t / k2_of A) * sin t) (total_angles A).
Definition cscat (A : refl_args) (P S : R -> R) : R :=
  (tot_cs A P (fun _ => 1) + tot_cs A S (fun _ => 1)) / 2.
Definition cext (A : refl_args) (P S : R -> R) : R := cscat A P S + a_cabs A.
Definition fres (A : refl_args) : R * R := fresnel_refl1 (a_nmedium A) (a_nsample A) (a_inc A).
Definition thick_factor (A : refl_args) (P S : R -> R) : num :=
  match a_thickness A with
  | None => Some 1
  | Some L => ndiv ((1 - exp (- a_rho A * cext A P S * L)) * cscat A P S) (cext A P S) end.
Definition refl_pol (A : refl_args) (P S : R -> R) (r d : R) : num :=
  nbind (thick_factor A P S) (fun f => nbind (ndiv ((1 - r) * d) (cext A P S)) (fun a => Some (a * f + r))).

Lemma get_all_somes {A} (f : A -> R) l : get_all (map (fun a => Some (f a)) l) = Some (map f l).
Proof.
  unfold get_all.
  assert (E : existsb is_none (map (fun a => Some (f a)) l) = false)
    by (induction l; cbn; auto).
  rewrite E. f_equal. unfold somes. rewrite map_map. reflexivity.
Qed.

Lemma all_angles_ok {B} (f : R -> B) l : all_angles (fun t => Ok (f t)) l = Ok (map f l).
Proof. induction l as [|t l IH]; [reflexivity|]. cbn. rewrite IH. reflexivity. Qed.

Lemma existsb_past l : (forall t, In t l -> t <= PI / 2) ->
  existsb (fun t => Rltb (PI / 2) t) l = false.
Proof.
  induction l as [|t l IH]; intros H; [reflexivity|]. cbn.
  rewrite (proj2 (Rltb_false (PI / 2) t)) by (apply H; now left).
  apply IH. intros; apply H; now right.
Qed.

Lemma fresnel_reflection_ok n1 n2 l : (forall t, In t l -> t <= PI / 2) ->
  fresnel_reflection n1 n2 l
  = Ok (map (fun t => fst (fresnel_refl1 n1 n2 t)) l, map (fun t => snd (fresnel_refl1 n1 n2 t)) l).
Proof.
  intros H. unfold fresnel_reflection. rewrite existsb_past by exact H. now rewrite !map_map.
Qed.

Lemma fresnel_transmission_ok n1 n2 l : (forall t, In t l -> t <= PI / 2) ->
  fresnel_transmission n1 n2 l
  = Ok (map (fun t => 1 - fst (fresnel_refl1 n1 n2 t)) l, map (fun t => 1 - snd (fresnel_refl1 n1 n2 t)) l).
Proof.
  intros H. unfold fresnel_transmission. rewrite fresnel_reflection_ok by exact H. cbn.
  now rewrite !map_map.
Qed.

Lemma k2_abs A : Rabs (2 * PI * a_nsample A / a_wavelen A) ^ 2 = k2_of A.
Proof. apply abs_sq. Qed.

Lemma reflection_value A P S : a_inc A <= PI / 2 ->
  (forall t, In t (detected_angles A) -> PI / 2 <= t) ->
  reflection_real A (fun t => Ok (Some (P t), Some (S t)))
  = Ok (let par := refl_pol A P S (fst (fres A)) (det_cs A P (Tpar A)) in
        let perp := refl_pol A P S (snd (fres A)) (det_cs A S (Tperp A)) in
        let g := nmap (fun a => a / 2) (ndiv (tot_cs A P cos + tot_cs A S cos) (cscat A P S)) in
        mk_rout (nmap2 (fun a b => (a + b) / 2) par perp) par perp g
          (nbind g (fun g => nbind (ndiv 1 (1 - g)) (fun a =>
           nbind (ndiv a (a_rho A)) (fun b => ndiv b (cscat A P S)))))).
Proof.
  intros Hi Hd. unfold reflection_real.
  assert (H1 : forall t, In t [a_inc A] -> t <= PI / 2) by (intros t [<-|[]]; exact Hi).
  rewrite (fresnel_transmission_ok _ _ [a_inc A]) by exact H1.
  rewrite (fresnel_reflection_ok _ _ [a_inc A]) by exact H1. cbn [bind].
  rewrite fresnel_transmission_ok.
  2:{ intros t Ht. apply in_map_iff in Ht as [u [<- Hu]]. specialize (Hd u Hu). lra. }
  cbn [bind]. rewrite !all_angles_ok. cbn [bind].
  rewrite !map_map. cbn [fst snd]. rewrite !get_all_somes.
  unfold reflection_core. cbn [fst snd nth map].
  rewrite k2_abs. rewrite !map_map.
  rewrite !integrate_map.
  fold (Tpar A). fold (Tperp A). fold (fres A).
  change ((a_pmax A - a_pmin A) * trap_int (fun t => P t * ((1 - fst (fresnel_refl1 (a_nsample A) (a_nmedium A) (PI - t))) / k2_of A) * sin t) (detected_angles A))
    with (det_cs A P (Tpar A)).
  change ((a_pmax A - a_pmin A) * trap_int (fun t => S t * ((1 - snd (fresnel_refl1 (a_nsample A) (a_nmedium A) (PI - t))) / k2_of A) * sin t) (detected_angles A))
    with (det_cs A S (Tperp A)).
  change (2 * PI * trap_int (fun t => P t * (1 / k2_of A) * sin t) (total_angles A)) with (tot_cs A P (fun _ => 1)).
  change (2 * PI * trap_int (fun t => S t * (1 / k2_of A) * sin t) (total_angles A)) with (tot_cs A S (fun _ => 1)).
  assert (E : forall Q, 2 * PI * trap_int (fun t => Q t * (cos t * 1 / k2_of A) * sin t) (total_angles A) = tot_cs A Q cos).
  { intros Q. unfold tot_cs. f_equal. apply trap_int_ext. intros t _. now rewrite Rmult_1_r. }
  rewrite !E. reflexivity.
Qed.

Lemma detected_ok A : 0 < a_nmedium A -> 0 < a_nsample A ->
  0 <= a_tmin A <= PI -> 0 <= a_tmax A <= PI ->
  forall t, In t (detected_angles A) -> PI / 2 <= t.
Proof.
  intros H1 H2 H3 H4 t Ht. unfold detected_angles in Ht.
  eapply linspace_lower; [| |exact Ht]; apply refracted_range; assumption.
Qed.
