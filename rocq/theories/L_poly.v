(** Lemmas on the polydisperse structure factor. *)
From Verif Require Import Num L_num M_structure.
From Coq Require Import Lra Lia Psatz.
From Coquelicot Require Import Complex.
Open Scope R_scope.

Definition good_sp (k : species) : Prop := 0 <= sp_c k /\ 0 < sp_d k.
Definition scale_sp (lam : R) (k : species) : species :=
  mkSp (sp_c k) (lam * sp_d k) (sp_pdi k).

Lemma sp_t3_pos : forall k, 0 < sp_t3 k.
Proof.
  intro k. unfold sp_t3, Dsigma. pose proof (pow2_ge_0 (sp_pdi k)). nra.
Qed.

Lemma rho_of_pos : forall phi k, 0 < phi -> 0 < sp_d k -> 0 < rho_of phi k.
Proof.
  intros phi k Hp Hd. unfold rho_of. pose proof (sp_t3_pos k). pose proof PI_RGT_0.
  pose proof (pow_lt (sp_d k) 3 Hd).
  apply Rmult_lt_0_compat; [lra|]. apply Rinv_0_lt_compat.
  apply Rmult_lt_0_compat; [apply Rmult_lt_0_compat|]; assumption.
Qed.

Lemma ratio_pos : forall s0 s1, 0 < sp_c s0 -> 0 < sp_c s1 -> 0 < sp_d s0 -> 0 < sp_d s1 ->
  0 < sp_c s0 / sp_c s1 * (sp_d s0 / sp_d s1) ^ 3 * sp_t3 s0 / sp_t3 s1.
Proof.
  intros s0 s1 A B D E. pose proof (sp_t3_pos s0). pose proof (sp_t3_pos s1).
  assert (0 < sp_c s0 / sp_c s1) by (apply Rmult_lt_0_compat; [assumption|apply Rinv_0_lt_compat; assumption]).
  assert (0 < sp_d s0 / sp_d s1) by (apply Rmult_lt_0_compat; [assumption|apply Rinv_0_lt_compat; assumption]).
  pose proof (pow_lt _ 3 H2).
  apply Rmult_lt_0_compat; [|apply Rinv_0_lt_compat; assumption].
  apply Rmult_lt_0_compat; [apply Rmult_lt_0_compat|]; assumption.
Qed.

Lemma inv1p_bounds : forall x, 0 < x -> 0 < 1 / (x + 1) < 1.
Proof.
  intros x Hx. split.
  - apply Rmult_lt_0_compat; [lra|apply Rinv_0_lt_compat; lra].
  - apply (Rmult_lt_reg_r (x + 1)); [lra|]. unfold Rdiv. rewrite Rmult_assoc, Rinv_l by lra. lra.
Qed.

Lemma poly_rho_pos : forall phi l, 0 < phi -> Forall good_sp l ->
  (length l = 1 \/ length l = 2)%nat -> 0 < poly_rho phi l.
Proof.
  intros phi l Hp Hg Hl.
  destruct l as [|s0 [|s1 [|s2 l]]]; cbn [length] in Hl; try lia.
  - apply Forall_inv in Hg. apply rho_of_pos; [assumption|apply Hg].
  - pose proof (Forall_inv Hg) as [C0 D0]. pose proof (Forall_inv (Forall_inv_tail Hg)) as [C1 D1].
    cbn [poly_rho].
    destruct (Reqb (sp_c s0) 0) eqn:E0; [apply rho_of_pos; assumption|].
    destruct (Reqb (sp_c s1) 0) eqn:E1; [apply rho_of_pos; assumption|].
    apply Reqb_false in E0, E1.
    pose proof (ratio_pos s0 s1 ltac:(lra) ltac:(lra) D0 D1) as P.
    pose proof (inv1p_bounds _ P) as Q. set (u := 1 / _) in *.
    apply Rplus_lt_0_compat; apply rho_of_pos; try assumption; nra.
Qed.

(** ** Scale invariance. *)

Lemma rho_of_scale : forall lam phi k, 0 < lam -> 0 < sp_d k ->
  rho_of phi (scale_sp lam k) = rho_of phi k / lam ^ 3.
Proof.
  intros lam phi k Hl Hd. unfold rho_of.
  change (sp_t3 (scale_sp lam k)) with (sp_t3 k). cbn [scale_sp sp_d].
  pose proof (sp_t3_pos k). pose proof PI_RGT_0. field. repeat split; lra.
Qed.

Lemma poly_rho_scale : forall lam phi l, 0 < lam -> Forall good_sp l ->
  poly_rho phi (map (scale_sp lam) l) = poly_rho phi l / lam ^ 3.
Proof.
  intros lam phi l Hl Hg.
  assert (Z : 0 = 0 / lam ^ 3) by (unfold Rdiv; ring).
  destruct l as [|s0 [|s1 [|s2 l]]]; cbn [map poly_rho]; try exact Z.
  - apply rho_of_scale; [assumption|]. apply (Forall_inv Hg).
  - pose proof (Forall_inv Hg) as [C0 D0]. pose proof (Forall_inv (Forall_inv_tail Hg)) as [C1 D1].
    change (sp_c (scale_sp lam s0)) with (sp_c s0). change (sp_c (scale_sp lam s1)) with (sp_c s1).
    change (sp_t3 (scale_sp lam s0)) with (sp_t3 s0). change (sp_t3 (scale_sp lam s1)) with (sp_t3 s1).
    cbn [scale_sp sp_d].
    replace (lam * sp_d s0 / (lam * sp_d s1)) with (sp_d s0 / sp_d s1) by (field; lra).
    destruct (Reqb (sp_c s0) 0); [apply rho_of_scale; assumption|].
    destruct (Reqb (sp_c s1) 0); [apply rho_of_scale; assumption|].
    cbv zeta. rewrite !rho_of_scale by assumption. field. apply Rgt_not_eq. lra.
Qed.

Lemma poly_sigma0_scale : forall lam phi rho, 0 < lam -> 0 < phi -> 0 < rho ->
  poly_sigma0 phi (rho / lam ^ 3) = lam * poly_sigma0 phi rho.
Proof.
  intros lam phi rho Hl Hp Hr. unfold poly_sigma0. pose proof PI_RGT_0.
  replace (6 * phi / (PI * (rho / lam ^ 3))) with (lam ^ 3 * (6 * phi / (PI * rho)))
    by (field; repeat split; lra).
  rewrite <- Rpower_mult_distr.
  2: apply pow_lt; assumption.
  2: apply Rmult_lt_0_compat; [lra|apply Rinv_0_lt_compat, Rmult_lt_0_compat; assumption].
  f_equal. rewrite <- (Rpower_pow 3) by assumption. rewrite Rpower_mult.
  replace (INR 3 * (1 / 3)) with 1 by (cbn; field). apply Rpower_1; assumption.
Qed.

Lemma Csum_scale : forall (A : Type) (a : C) (f g : A -> C) l,
  (forall k, In k l -> g k = Cmult a (f k)) -> Csum (map g l) = Cmult a (Csum (map f l)).
Proof.
  intros A a f g l H. induction l as [|k l IH]; cbn [map Csum fold_right].
  - ring.
  - unfold Csum in IH. rewrite IH by (intros; apply H; right; assumption).
    rewrite (H k (or_introl eq_refl)). ring.
Qed.

Lemma RtoC_neq : forall x : R, x <> 0 -> RtoC x <> RtoC 0.
Proof. intros x H E. apply H. apply (f_equal fst) in E. exact E. Qed.

Section Scale.
Variables (lam q phi : R) (l : list species).
Hypothesis Hlam : 0 < lam.
Hypothesis Hq : q <> 0.
Hypothesis Hphi : 0 < phi < 1.
Hypothesis Hg : Forall good_sp l.
Hypothesis Hlen : (length l = 1 \/ length l = 2)%nat.
Let l' := map (scale_sp lam) l.
Let q' := q / lam.
Local Open Scope C_scope.
Let L : C := RtoC lam.

Lemma L_nz : L <> 0. Proof. apply RtoC_neq. lra. Qed.
Lemma Lr_nz : RtoC lam <> 0. Proof. apply RtoC_neq. lra. Qed.
Lemma s_nz : ((0, q) : C) <> 0.
Proof. intro E. apply (f_equal snd) in E. cbn in E. contradiction. Qed.
Lemma D_nz : RtoC (1 - phi) <> 0.
Proof. apply RtoC_neq. lra. Qed.
Lemma two_nz : RtoC 2 <> 0. Proof. apply RtoC_neq. lra. Qed.

Lemma s_scale : ((0, q') : C) = (0, q) / L.
Proof.
  unfold q', L, Cdiv, Cinv, Cmult, RtoC. cbn [fst snd]. f_equal; field; lra.
Qed.

Lemma good_in : forall k, In k l -> (0 < sp_d k)%R.
Proof. intros k Hk. rewrite Forall_forall in Hg. apply Hg; assumption. Qed.

Lemma x_scale : forall k, sp_x q' (scale_sp lam k) = sp_x q k.
Proof.
  intro k. unfold sp_x. rewrite s_scale. cbn [scale_sp sp_d]. rewrite RtoC_mult.
  unfold L. field. apply Lr_nz.
Qed.

Lemma rho_scale : RtoC (poly_rho phi l') = RtoC (poly_rho phi l) / (L * L * L).
Proof.
  unfold l'. rewrite poly_rho_scale by assumption.
  rewrite RtoC_div by (apply pow_nonzero; lra).
  unfold L. rewrite <- !RtoC_mult. do 2 f_equal. ring.
Qed.

Lemma zeta_scale : RtoC (poly_zeta2 phi (poly_rho phi l'))
                   = RtoC (poly_zeta2 phi (poly_rho phi l)) / L.
Proof.
  unfold l', poly_zeta2. rewrite poly_rho_scale by assumption.
  pose proof (poly_rho_pos phi l ltac:(lra) Hg Hlen).
  rewrite poly_sigma0_scale by lra.
  unfold L. rewrite <- RtoC_div by lra. f_equal. field. lra.
Qed.

Ltac push k := rewrite ?x_scale; cbn [scale_sp sp_c sp_d]; rewrite ?RtoC_mult.

Lemma f0_scale : forall k, sp_f0 q' (scale_sp lam k) = sp_f0 q k.
Proof. intro k. unfold sp_f0. rewrite x_scale. reflexivity. Qed.
Lemma f1_scale : forall k, sp_f1 q' (scale_sp lam k) = sp_f1 q k.
Proof. intro k. unfold sp_f1. rewrite x_scale. reflexivity. Qed.
Lemma f2_scale : forall k, sp_f2 q' (scale_sp lam k) = sp_f2 q k.
Proof. intro k. unfold sp_f2. rewrite x_scale. reflexivity. Qed.
Lemma f0i_scale : forall k, sp_f0i q' (scale_sp lam k) = sp_f0i q k.
Proof. intro k. unfold sp_f0i. rewrite x_scale. reflexivity. Qed.
Lemma f1i_scale : forall k, sp_f1i q' (scale_sp lam k) = sp_f1i q k.
Proof. intro k. unfold sp_f1i. rewrite x_scale. reflexivity. Qed.
Lemma f2i_scale : forall k, sp_f2i q' (scale_sp lam k) = sp_f2i q k.
Proof. intro k. unfold sp_f2i. rewrite x_scale. reflexivity. Qed.
Lemma fa_scale : forall k, sp_fa q' (scale_sp lam k) = sp_fa q k.
Proof. intro k. unfold sp_fa. rewrite x_scale, f0_scale, f1_scale. reflexivity. Qed.
Lemma fb_scale : forall k, sp_fb q' (scale_sp lam k) = sp_fb q k.
Proof. intro k. unfold sp_fb. rewrite x_scale, f1_scale, f2_scale. reflexivity. Qed.
Lemma fc_scale : forall k, sp_fc q' (scale_sp lam k) = sp_fc q k.
Proof. intro k. unfold sp_fc. rewrite x_scale, f0_scale. reflexivity. Qed.
Lemma fd_scale : forall k, sp_fd q' (scale_sp lam k) = sp_fd q k.
Proof. intro k. unfold sp_fd. rewrite x_scale, f1_scale. reflexivity. Qed.

Ltac nz := repeat split; try apply Lr_nz; try apply s_nz; try apply D_nz; try apply two_nz;
           try (apply RtoC_neq; lra).

Lemma Ia1_scale : Ialpha1 q' phi l' = Ialpha1 q phi l.
Proof.
  unfold Ialpha1. rewrite s_scale. rewrite rho_scale.
  unfold l'. rewrite map_map.
  rewrite (Csum_scale _ (/ (L * L * L))
    (fun k => sp_c k * poly_rho phi l *
       (- (1 / 2) * (1 - sp_f0 q k) + sp_x q k / 4 * (1 + sp_f1 q k)))).
  - unfold L. field. nz.
  - intros k Hk. rewrite x_scale, f0_scale, f1_scale. cbn [scale_sp sp_c].
    unfold L. field. nz.
Qed.

Lemma Ia2_scale : Ialpha2 q' phi l' = L * Ialpha2 q phi l.
Proof.
  unfold Ialpha2. rewrite s_scale. rewrite rho_scale.
  unfold l'. rewrite map_map.
  rewrite (Csum_scale _ (/ (L * L))
    (fun k => sp_c k * poly_rho phi l *
       (- (sp_d k / 2) * (1 - sp_f1 q k)
        + (0, q) * (sp_d k * sp_d k) / 4 * (sp_t2 k + sp_f2 q k)))).
  - unfold L. field. nz.
  - intros k Hk. rewrite f1_scale, f2_scale. cbn [scale_sp sp_c sp_d].
    change (sp_t2 (scale_sp lam k)) with (sp_t2 k).
    rewrite RtoC_mult. unfold L. field. nz.
Qed.

Lemma Iw1_scale : Iw1 q' phi l' = Iw1 q phi l.
Proof.
  unfold Iw1. rewrite Ia1_scale, Ia2_scale, s_scale, rho_scale.
  unfold L. field. nz.
Qed.

Lemma Iw2_scale : Iw2 q' phi l' = Iw2 q phi l / L.
Proof.
  unfold Iw2. rewrite Ia1_scale, Ia2_scale, s_scale, zeta_scale, rho_scale.
  unfold L. field. nz.
Qed.

Lemma F11_scale : F11 q' phi l' = F11 q phi l.
Proof.
  unfold F11. rewrite rho_scale. unfold l'. rewrite map_map.
  rewrite (Csum_scale _ 1 (fun k =>
    sp_c k * (2 * PI * poly_rho phi l * (sp_d k * sp_d k * sp_d k) / (1 - phi)%R) * sp_fa q k)).
  - ring.
  - intros k Hk. rewrite fa_scale. cbn [scale_sp sp_c sp_d]. rewrite RtoC_mult.
    unfold L. field. nz.
Qed.

Lemma F12_scale : F12 q' phi l' = F12 q phi l / L.
Proof.
  unfold F12. rewrite zeta_scale, rho_scale. unfold l'. rewrite map_map.
  match goal with |- _ = Csum (map ?f l) / L =>
    transitivity (/ L * Csum (map f l)); [apply Csum_scale | unfold Cdiv; apply Cmult_comm] end.
  intros k Hk. rewrite fa_scale, fc_scale. cbn [scale_sp sp_c sp_d]. rewrite RtoC_mult.
  pose proof (RtoC_neq _ (Rgt_not_eq _ _ (good_in k Hk))).
  unfold L. field. nz. assumption.
Qed.

Lemma F21_scale : F21 q' phi l' = L * F21 q phi l.
Proof.
  unfold F21. rewrite rho_scale. unfold l'. rewrite map_map.
  apply Csum_scale.
  intros k Hk. rewrite fb_scale. cbn [scale_sp sp_c sp_d]. rewrite RtoC_mult.
  unfold L. field. nz.
Qed.

Lemma F22_scale : F22 q' phi l' = F22 q phi l.
Proof.
  unfold F22. rewrite zeta_scale, rho_scale. unfold l'. rewrite map_map.
  match goal with |- _ = Csum (map ?f l) => rewrite (Csum_scale _ 1 f) end.
  - ring.
  - intros k Hk. rewrite fb_scale, fd_scale. cbn [scale_sp sp_c sp_d]. rewrite RtoC_mult.
    unfold L. field. nz.
Qed.

Lemma FFdet_scale : FFdet q' phi l' = FFdet q phi l.
Proof.
  unfold FFdet, FF11, FF12, FF21, FF22.
  rewrite F11_scale, F12_scale, F21_scale, F22_scale. unfold L. field. nz.
Qed.

Lemma I0_scale : I0 q' phi l' = I0 q phi l.
Proof.
  unfold I0, two_s. rewrite s_scale, rho_scale. unfold l'. rewrite map_map.
  match goal with |- _ = _ * Csum (map ?f l) =>
    rewrite (Csum_scale _ (/ (L * L * L * L * L * L)) f) end.
  - unfold L. field. nz.
  - intros k Hk. rewrite x_scale, f0_scale, f1_scale, f2_scale, f0i_scale, f1i_scale, f2i_scale.
    change (sp_t2 (scale_sp lam k)) with (sp_t2 k).
    cbn [scale_sp sp_c sp_d]. rewrite RtoC_mult. unfold L. field. nz.
Qed.

Lemma h2_scale : poly_h2 q' phi l' = poly_h2 q phi l.
Proof.
  unfold poly_h2. f_equal.
  unfold G11, G12, G21, G22. rewrite FFdet_scale.
  rewrite Iw1_scale, Iw2_scale, I0_scale, Ia1_scale, Ia2_scale.
  unfold FF11, FF12, FF21, FF22. rewrite F11_scale, F12_scale, F21_scale, F22_scale.
  unfold Cdiv.
  set (d := Cinv (FFdet q phi l)). set (i := Cinv (I0 q phi l)).
  unfold L. field. nz.
Qed.
End Scale.

Lemma factor_poly_w_scale : forall lam q phi l, 0 < lam -> q <> 0 -> 0 < phi < 1 ->
  Forall good_sp l -> (length l = 1 \/ length l = 2)%nat ->
  factor_poly_w (q / lam) phi (map (scale_sp lam) l) = factor_poly_w q phi l.
Proof.
  intros lam q phi l H1 H2 H3 H4 H5. unfold factor_poly_w.
  rewrite (h2_scale lam q phi l H1 H2 H3 H4 H5). reflexivity.
Qed.

(** ** Order of the species, identical species, absent species. *)

Lemma Csum_ext_h2 : forall q phi l l',
  poly_rho phi l = poly_rho phi l' ->
  (forall f g : species -> C,
     (forall k, f k = Cmult (RtoC (sp_c k)) (g k)) ->
     (forall k k', sp_d k = sp_d k' -> sp_pdi k = sp_pdi k' -> g k = g k') ->
     Csum (map f l) = Csum (map f l')) ->
  poly_h2 q phi l = poly_h2 q phi l'.
Proof.
  intros q phi l l' Hr Hs.
  assert (A1 : Ialpha1 q phi l = Ialpha1 q phi l').
  { unfold Ialpha1. rewrite Hr. f_equal.
    match goal with |- Csum (map ?f _) = _ => apply (Hs f (fun k =>
      RtoC (poly_rho phi l') * (- (1 / 2) * (1 - sp_f0 q k) + sp_x q k / 4 * (1 + sp_f1 q k)))%C) end.
    - intro k. ring.
    - intros [c d p] [c' d' p']; cbn [sp_d sp_pdi]; intros -> ->; reflexivity. }
  assert (A2 : Ialpha2 q phi l = Ialpha2 q phi l').
  { unfold Ialpha2. rewrite Hr. f_equal.
    match goal with |- Csum (map ?f _) = _ => apply (Hs f (fun k =>
      RtoC (poly_rho phi l') * (- (RtoC (sp_d k) / 2) * (1 - sp_f1 q k)
        + (0%R, q) * (RtoC (sp_d k) * RtoC (sp_d k)) / 4 * (RtoC (sp_t2 k) + sp_f2 q k)))%C) end.
    - intro k. ring.
    - intros [c d p] [c' d' p']; cbn [sp_d sp_pdi]; intros -> ->; reflexivity. }
  assert (B1 : Iw1 q phi l = Iw1 q phi l') by (unfold Iw1; rewrite A1, A2, Hr; reflexivity).
  assert (B2 : Iw2 q phi l = Iw2 q phi l') by (unfold Iw2; rewrite A1, A2, Hr; reflexivity).
  assert (C11 : F11 q phi l = F11 q phi l').
  { unfold F11. rewrite Hr.
    match goal with |- Csum (map ?f _) = _ => apply (Hs f (fun k =>
      ((2 * RtoC PI * RtoC (poly_rho phi l') * (RtoC (sp_d k) * RtoC (sp_d k) * RtoC (sp_d k))
        / RtoC (1 - phi)%R) * sp_fa q k))%C) end.
    - intro k. ring.
    - intros [c d p] [c' d' p']; cbn [sp_d sp_pdi]; intros -> ->; reflexivity. }
  assert (C12 : F12 q phi l = F12 q phi l').
  { unfold F12. rewrite Hr.
    match goal with |- Csum (map ?f _) = _ => apply (Hs f (fun k =>
      / RtoC (sp_d k) * ((RtoC PI / RtoC (1 - phi)%R) * (RtoC PI / RtoC (1 - phi)%R)
        * RtoC (poly_rho phi l') * RtoC (poly_zeta2 phi (poly_rho phi l'))
        * (RtoC (sp_d k) * RtoC (sp_d k) * RtoC (sp_d k) * RtoC (sp_d k)) * sp_fa q k
        + RtoC PI * RtoC (poly_rho phi l') * (RtoC (sp_d k) * RtoC (sp_d k) * RtoC (sp_d k))
          / RtoC (1 - phi)%R * sp_fc q k))%C) end.
    - intro k. unfold Cdiv. ring.
    - intros [c d p] [c' d' p']; cbn [sp_d sp_pdi]; intros -> ->; reflexivity. }
  assert (C21 : F21 q phi l = F21 q phi l').
  { unfold F21. rewrite Hr.
    match goal with |- Csum (map ?f _) = _ => apply (Hs f (fun k =>
      (RtoC (sp_d k) * (2 * RtoC PI * RtoC (poly_rho phi l')
        * (RtoC (sp_d k) * RtoC (sp_d k) * RtoC (sp_d k))
        / RtoC (1 - phi)%R) * sp_fb q k))%C) end.
    - intro k. ring.
    - intros [c d p] [c' d' p']; cbn [sp_d sp_pdi]; intros -> ->; reflexivity. }
  assert (C22 : F22 q phi l = F22 q phi l').
  { unfold F22. rewrite Hr.
    match goal with |- Csum (map ?f _) = _ => apply (Hs f (fun k =>
      ((RtoC PI / RtoC (1 - phi)%R) * (RtoC PI / RtoC (1 - phi)%R)
        * RtoC (poly_rho phi l') * RtoC (poly_zeta2 phi (poly_rho phi l'))
        * (RtoC (sp_d k) * RtoC (sp_d k) * RtoC (sp_d k) * RtoC (sp_d k)) * sp_fb q k
        + RtoC PI * RtoC (poly_rho phi l') * (RtoC (sp_d k) * RtoC (sp_d k) * RtoC (sp_d k))
          / RtoC (1 - phi)%R * sp_fd q k))%C) end.
    - intro k. reflexivity.
    - intros [c d p] [c' d' p']; cbn [sp_d sp_pdi]; intros -> ->; reflexivity. }
  assert (I : I0 q phi l = I0 q phi l').
  { unfold I0. rewrite Hr. f_equal.
    match goal with |- Csum (map ?f _) = _ => apply (Hs f (fun k =>
      RtoC (poly_rho phi l') * RtoC (poly_rho phi l') * (1 - 1 / 2 * (sp_f0i q k + sp_f0 q k)
        + sp_x q k / 2 * (sp_f1i q k - sp_f1 q k)
        - ((0%R, q) * (0%R, q) * (RtoC (sp_d k) * RtoC (sp_d k))) / 8
          * (sp_f2i q k + sp_f2 q k + 2 * RtoC (sp_t2 k))))%C) end.
    - intro k. ring.
    - intros [c d p] [c' d' p']; cbn [sp_d sp_pdi]; intros -> ->; reflexivity. }
  unfold poly_h2, G11, G12, G21, G22, FFdet, FF11, FF12, FF21, FF22.
  rewrite A1, A2, B1, B2, C11, C12, C21, C22, I. reflexivity.
Qed.

Lemma poly_rho_swap : forall phi s0 s1, good_sp s0 -> good_sp s1 ->
  0 < sp_c s0 + sp_c s1 -> poly_rho phi [s1; s0] = poly_rho phi [s0; s1].
Proof.
  intros phi s0 s1 [C0 D0] [C1 D1] Hc. cbn [poly_rho].
  destruct (Reqb (sp_c s0) 0) eqn:E0; destruct (Reqb (sp_c s1) 0) eqn:E1;
    try (apply Reqb_true in E0); try (apply Reqb_true in E1); try lra; try reflexivity.
  apply Reqb_false in E0, E1. cbv zeta. unfold rho_of.
  pose proof (sp_t3_pos s0) as T0. pose proof (sp_t3_pos s1) as T1. pose proof PI_RGT_0.
  pose proof (ratio_pos s0 s1 ltac:(lra) ltac:(lra) D0 D1) as P.
  set (u := sp_c s0 / sp_c s1 * (sp_d s0 / sp_d s1) ^ 3 * sp_t3 s0 / sp_t3 s1) in *.
  replace (sp_c s1 / sp_c s0 * (sp_d s1 / sp_d s0) ^ 3 * sp_t3 s1 / sp_t3 s0) with (/ u)
    by (unfold u; field; repeat split; lra).
  assert (U : / u + 1 = (1 + u) / u) by (field; lra).
  rewrite U. clearbody u.
  field. repeat split; lra.
Qed.

Lemma factor_poly_w_swap : forall q phi s0 s1, good_sp s0 -> good_sp s1 ->
  0 < sp_c s0 + sp_c s1 -> factor_poly_w q phi [s1; s0] = factor_poly_w q phi [s0; s1].
Proof.
  intros q phi s0 s1 G0 G1 Hc. unfold factor_poly_w.
  rewrite (Csum_ext_h2 q phi [s1; s0] [s0; s1]); [reflexivity | apply poly_rho_swap; assumption|].
  intros f g _ _. cbn [map Csum fold_right]. ring.
Qed.

Lemma factor_poly_w_same : forall q phi c0 c1 d p, 0 < c0 -> 0 < c1 -> 0 < d ->
  factor_poly_w q phi [mkSp c0 d p; mkSp c1 d p] = factor_poly_w q phi [mkSp (c0 + c1) d p].
Proof.
  intros q phi c0 c1 d p H0 H1 Hd. unfold factor_poly_w.
  rewrite (Csum_ext_h2 q phi _ [mkSp (c0 + c1) d p]); [reflexivity| |].
  - cbn [poly_rho sp_c sp_d].
    rewrite (proj2 (Reqb_false c0 0)), (proj2 (Reqb_false c1 0)) by lra. cbv zeta.
    change (sp_t3 (mkSp c1 d p)) with (sp_t3 (mkSp c0 d p)).
    unfold rho_of. change (sp_t3 (mkSp c1 d p)) with (sp_t3 (mkSp c0 d p)).
    change (sp_t3 (mkSp (c0 + c1) d p)) with (sp_t3 (mkSp c0 d p)).
    pose proof (sp_t3_pos (mkSp c0 d p)). set (t := sp_t3 (mkSp c0 d p)) in *.
    pose proof PI_RGT_0. cbn [sp_d]. field.
    repeat split; lra.
  - intros f g Hf Hg. cbn [map Csum fold_right]. rewrite !Hf. cbn [sp_c].
    rewrite (Hg (mkSp c1 d p) (mkSp c0 d p)) by reflexivity.
    rewrite (Hg (mkSp (c0 + c1) d p) (mkSp c0 d p)) by reflexivity.
    rewrite RtoC_plus. ring.
Qed.

Lemma factor_poly_w_absent : forall q phi s d p, sp_c s <> 0 ->
  factor_poly_w q phi [s; mkSp 0 d p] = factor_poly_w q phi [s] /\
  factor_poly_w q phi [mkSp 0 d p; s] = factor_poly_w q phi [s].
Proof.
  intros q phi s d p Hs. unfold factor_poly_w. split.
  - rewrite (Csum_ext_h2 q phi _ [s]); [reflexivity| |].
    + cbn [poly_rho sp_c]. rewrite (proj2 (Reqb_false _ _) Hs), (proj2 (Reqb_true 0 0) eq_refl).
      reflexivity.
    + intros f g Hf _. cbn [map Csum fold_right]. rewrite !Hf. cbn [sp_c]. ring.
  - rewrite (Csum_ext_h2 q phi _ [s]); [reflexivity| |].
    + cbn [poly_rho sp_c]. rewrite (proj2 (Reqb_true 0 0) eq_refl). reflexivity.
    + intros f g Hf _. cbn [map Csum fold_right]. rewrite !Hf. cbn [sp_c]. ring.
Qed.

Lemma factor_poly_w_nonneg : forall q phi l, 0 <= factor_poly_w q phi l.
Proof.
  intros. unfold factor_poly_w. cbv zeta.
  destruct (Rltb _ 0) eqn:E; [lra|]. apply Rltb_false in E. lra.
Qed.

(** ** The same after the floor on the polydispersity indices. *)
Lemma good_floor l : Forall good_sp l -> Forall good_sp (map floor_sp l).
Proof. intros H. apply Forall_map. exact H. Qed.
Lemma factor_poly_scale : forall lam q phi l, 0 < lam -> q <> 0 -> 0 < phi < 1 ->
  Forall good_sp l -> (length l = 1 \/ length l = 2)%nat ->
  factor_poly (q / lam) phi (map (scale_sp lam) l) = factor_poly q phi l.
Proof.
  intros lam q phi l H1 H2 H3 H4 H5. unfold factor_poly.
  replace (map floor_sp (map (scale_sp lam) l)) with (map (scale_sp lam) (map floor_sp l)) by (rewrite !map_map; reflexivity).
  apply factor_poly_w_scale; try assumption; [now apply good_floor|now rewrite map_length].
Qed.
Lemma factor_poly_swap : forall q phi s0 s1, good_sp s0 -> good_sp s1 ->
  0 < sp_c s0 + sp_c s1 -> factor_poly q phi [s1; s0] = factor_poly q phi [s0; s1].
Proof. intros. apply factor_poly_w_swap; assumption. Qed.
Lemma factor_poly_same : forall q phi c0 c1 d p, 0 < c0 -> 0 < c1 -> 0 < d ->
  factor_poly q phi [mkSp c0 d p; mkSp c1 d p] = factor_poly q phi [mkSp (c0 + c1) d p].
Proof. intros. apply factor_poly_w_same; assumption. Qed.
Lemma factor_poly_absent : forall q phi s d p, sp_c s <> 0 ->
  factor_poly q phi [s; mkSp 0 d p] = factor_poly q phi [s] /\
  factor_poly q phi [mkSp 0 d p; s] = factor_poly q phi [s].
Proof. intros q phi s d p H. apply (factor_poly_w_absent q phi (floor_sp s) d (pdi_floor p) H). Qed.
Lemma factor_poly_nonneg : forall q phi l, 0 <= factor_poly q phi l.
Proof. intros. apply factor_poly_w_nonneg. Qed.
