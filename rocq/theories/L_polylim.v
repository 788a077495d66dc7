(** Limits of the polydisperse structure factor (C142). *)
From Verif Require Import Num L_num M_structure L_poly.
From Coq Require Import Lra Lia Psatz.
From Coquelicot Require Import Complex.
Open Scope R_scope.

(** [f] is O(q^z) as q grows. *)
Definition O (f : R -> C) (z : R) : Prop :=
  exists K Q, 0 <= K /\ 1 <= Q /\ forall q, Q < q -> Cmod (f q) <= K * Rpower q z.

Lemma Rpower_nonneg x y : 0 <= Rpower x y.
Proof. unfold Rpower. left. apply exp_pos. Qed.

Lemma O_ext f g z : (forall q, 1 < q -> f q = g q) -> O f z -> O g z.
Proof. intros E (K & Q & HK & HQ & H). exists K, Q. do 2 (split; [assumption|]). intros q Hq. rewrite <- E by lra. now apply H. Qed.
Lemma O_weaken f z z' : z <= z' -> O f z -> O f z'.
Proof.
  intros Hz (K & Q & HK & HQ & H). exists K, Q. do 2 (split; [assumption|]). intros q Hq. eapply Rle_trans; [now apply H|].
  apply Rmult_le_compat_l; [exact HK|]. apply Rle_Rpower; lra.
Qed.
Lemma O_plus f g z : O f z -> O g z -> O (fun q => Cplus (f q) (g q)) z.
Proof.
  intros (K & Q & HK & HQ & H) (K' & Q' & HK' & HQ' & H'). exists (K + K'), (Rmax Q Q').
  pose proof (Rmax_l Q Q'). pose proof (Rmax_r Q Q').
  split; [lra|]. split; [lra|]. intros q Hq. eapply Rle_trans; [apply Cmod_triangle|].
  specialize (H q ltac:(lra)). specialize (H' q ltac:(lra)). lra.
Qed.
Lemma O_opp f z : O f z -> O (fun q => Copp (f q)) z.
Proof. intros (K & Q & HK & HQ & H). exists K, Q. do 2 (split; [assumption|]). intros q Hq. rewrite Cmod_opp. now apply H. Qed.
Lemma O_minus f g z : O f z -> O g z -> O (fun q => Cminus (f q) (g q)) z.
Proof. intros H1 H2. apply (O_plus f (fun q => Copp (g q))); [exact H1|now apply O_opp]. Qed.
Lemma O_mult f g z z' : O f z -> O g z' -> O (fun q => Cmult (f q) (g q)) (z + z').
Proof.
  intros (K & Q & HK & HQ & H) (K' & Q' & HK' & HQ' & H'). exists (K * K'), (Rmax Q Q').
  pose proof (Rmax_l Q Q'). pose proof (Rmax_r Q Q').
  split; [now apply Rmult_le_pos|]. split; [lra|]. intros q Hq. rewrite Cmod_mult, Rpower_plus.
  specialize (H q ltac:(lra)). specialize (H' q ltac:(lra)).
  replace (K * K' * (Rpower q z * Rpower q z')) with ((K * Rpower q z) * (K' * Rpower q z')) by ring.
  apply Rmult_le_compat; try assumption; apply Cmod_ge_0.
Qed.
Lemma O_const c : O (fun _ => c) 0.
Proof.
  exists (Cmod c), 1. split; [apply Cmod_ge_0|]. split; [lra|]. intros q Hq. rewrite Rpower_O by lra. lra.
Qed.
Lemma O_scal c f z : O f z -> O (fun q => Cmult c (f q)) z.
Proof. intros H. replace z with (0 + z) by ring. apply O_mult; [apply O_const|exact H]. Qed.
Lemma O_s : O (fun q => (0, q)) 1.
Proof.
  exists 1, 1. split; [lra|]. split; [lra|]. intros q Hq. rewrite Rpower_1 by lra.
  unfold Cmod. cbn [fst snd]. replace (0 ^ 2 + q ^ 2) with (q ^ 2) by ring. rewrite sqrt_pow2 by lra. lra.
Qed.
Lemma Cmod_s q : 0 < q -> Cmod (0, q) = q.
Proof. intros H. unfold Cmod. cbn [fst snd]. replace (0 ^ 2 + q ^ 2) with (q ^ 2) by ring. now rewrite sqrt_pow2 by lra. Qed.
Lemma s_neq q : q <> 0 -> ((0, q) : C) <> RtoC 0.
Proof. intros H E. apply (f_equal snd) in E. exact (H E). Qed.

(** [f] is at least of order q^z. *)
Definition atleast (f : R -> C) (z : R) : Prop :=
  exists k Q, 0 < k /\ 1 <= Q /\ forall q, Q < q -> k * Rpower q z <= Cmod (f q).
Lemma atleast_inv f z : atleast f z -> O (fun q => Cinv (f q)) (- z).
Proof.
  intros (k & Q & Hk & HQ & H). exists (/ k), Q. split; [left; now apply Rinv_0_lt_compat|]. split; [exact HQ|].
  intros q Hq. specialize (H q Hq). assert (Hp : 0 < Rpower q z) by (unfold Rpower; apply exp_pos).
  assert (Hm : 0 < Cmod (f q)) by (assert (0 < k * Rpower q z) by (now apply Rmult_lt_0_compat); lra).
  rewrite Cmod_inv by (intros E; rewrite E, Cmod_0 in Hm; lra). rewrite Rpower_Ropp, <- Rinv_mult.
  apply Rinv_le_contravar; [now apply Rmult_lt_0_compat|exact H].
Qed.
Lemma atleast_s : atleast (fun q => (0, q)) 1.
Proof. exists 1, 1. split; [lra|]. split; [lra|]. intros q Hq. rewrite Rpower_1, Cmod_s by lra. lra. Qed.
Lemma O_sinv : O (fun q => Cinv (0, q)) (-1).
Proof. exact (atleast_inv _ _ atleast_s). Qed.
(** A dominating term. *)
Lemma atleast_plus f g z z' : z' < z -> atleast f z -> O g z' -> atleast (fun q => Cplus (f q) (g q)) z.
Proof.
  intros Hz (k & Q & Hk & HQ & H) (K & Q' & HK & HQ' & H').
  set (E := Rpower (2 * K / k + 1) (/ (z - z'))). exists (k / 2), (Rmax (Rmax Q Q') E).
  pose proof (Rmax_l Q Q'). pose proof (Rmax_r Q Q'). pose proof (Rmax_l (Rmax Q Q') E). pose proof (Rmax_r (Rmax Q Q') E).
  split; [lra|]. split; [lra|]. intros q Hq. specialize (H q ltac:(lra)). specialize (H' q ltac:(lra)).
  assert (Hr : 2 * K / k + 1 <= Rpower q (z - z')).
  { assert (HE0 : 0 < 2 * K / k + 1). { assert (0 <= 2 * K / k) by (apply Rmult_le_pos; [lra|left; now apply Rinv_0_lt_compat]). lra. }
    replace (2 * K / k + 1) with (Rpower E (z - z')).
    - apply Rle_Rpower_l; [lra|]. split; [unfold E, Rpower; apply exp_pos|lra].
    - unfold E. rewrite Rpower_mult, Rinv_l, Rpower_1 by lra. reflexivity. }
  assert (Hp : 0 < Rpower q z') by (unfold Rpower; apply exp_pos).
  assert (Eq : Rpower q z = Rpower q (z - z') * Rpower q z') by (rewrite <- Rpower_plus; f_equal; ring).
  assert (HK2 : K * Rpower q z' <= k / 2 * Rpower q z).
  { rewrite Eq, <- Rmult_assoc. apply Rmult_le_compat_r; [lra|].
    apply Rle_trans with (k / 2 * (2 * K / k + 1)); [|apply Rmult_le_compat_l; lra].
    replace (k / 2 * (2 * K / k + 1)) with (K + k / 2) by (field; lra). lra. }
  pose proof (Cmod_triangle (Cplus (f q) (g q)) (Copp (g q))) as T. rewrite Cmod_opp in T.
  replace (Cplus (Cplus (f q) (g q)) (Copp (g q))) with (f q) in T by ring. lra.
Qed.
Lemma O_sum {A} (f : A -> R -> C) (l : list A) z : (forall a, In a l -> O (f a) z) -> O (fun q => Csum (map (fun a => f a q) l)) z.
Proof.
  induction l as [|a l IH]; intros H; cbn [map Csum fold_right].
  - exists 0, 1. split; [lra|]. split; [lra|]. intros q Hq. rewrite Cmod_0. lra.
  - apply (O_plus (f a)); [apply H; now left|apply IH; intros; apply H; now right].
Qed.

(** * The transforms *)
Lemma floor_bounds p : 1e-5 <= pdi_floor p.
Proof. unfold pdi_floor. destruct (Rltb p 1e-5) eqn:E; [lra|]. apply Rltb_false in E. exact E. Qed.
Lemma Dsigma_pos k : 0 < sp_pdi k -> 0 < Dsigma k.
Proof. intros H. unfold Dsigma. now apply pow_lt. Qed.
Lemma floor_pos k : 0 < sp_pdi (floor_sp k).
Proof. cbn. pose proof (floor_bounds (sp_pdi k)). lra. Qed.
Lemma sp_t1 k : sp_t k + 1 = / Dsigma k.
Proof. unfold sp_t, Rdiv. ring. Qed.
Lemma Cmod_pow z e : Cmod (Cpow_r z e) = Rpower (Cmod z) e.
Proof.
  unfold Cpow_r. set (a := atan _). cbv zeta. unfold Cmod at 1. cbn [fst snd].
  replace ((Rpower (Cmod z) e * cos (e * a)) ^ 2 + (Rpower (Cmod z) e * sin (e * a)) ^ 2)
    with (Rpower (Cmod z) e ^ 2 * (sin (e * a) * sin (e * a) + cos (e * a) * cos (e * a))) by ring.
  replace (sin (e * a) * sin (e * a) + cos (e * a) * cos (e * a)) with 1 by (pose proof (sin2_cos2 (e * a)); unfold Rsqr in *; lra).
  rewrite Rmult_1_r, sqrt_pow2; [reflexivity|apply Rpower_nonneg].
Qed.

Lemma O_fm sg k tm (m : R) : 0 < sp_pdi k -> 0 < sp_d k -> 0 <= m -> (sg = 1 \/ sg = -1) ->
  O (fun q => fm (Cmult (RtoC sg) (Cmult (0, q) (RtoC (sp_d k)))) (sp_t k) tm m) (- m).
Proof.
  intros Hpd Hd Hm Hsg. pose proof (Dsigma_pos k Hpd) as HD. unfold fm.
  apply O_scal. set (c := sp_d k * Dsigma k). assert (Hc : 0 < c) by (now apply Rmult_lt_0_compat).
  exists (Rpower c (- m)), 1. split; [apply Rpower_nonneg|]. split; [lra|]. intros q Hq. rewrite Cmod_pow, sp_t1.
  assert (Ez : Cplus (RtoC 1) (Cdiv (Cmult (RtoC sg) (Cmult (0, q) (RtoC (sp_d k)))) (RtoC (/ Dsigma k))) = (1, sg * (c * q))).
  { unfold Cdiv. rewrite <- RtoC_inv by (apply Rinv_neq_0_compat; lra). rewrite Rinv_inv. unfold c, Cplus, Cmult, RtoC. cbn [fst snd].
    apply (f_equal2 pair); ring. }
  rewrite Ez. set (M := Cmod (1, sg * (c * q))).
  assert (Hcq : 0 < c * q) by (apply Rmult_lt_0_compat; lra).
  assert (HM : M ^ 2 = 1 + (c * q) ^ 2).
  { unfold M, Cmod. cbn [fst snd]. rewrite pow2_sqrt by (pose proof (pow2_ge_0 1); pose proof (pow2_ge_0 (sg * (c * q))); lra).
    destruct Hsg as [-> | ->]; ring. }
  assert (HM0 : 0 <= M) by apply Cmod_ge_0.
  assert (M1 : 1 <= M) by nra. assert (Mc : c * q <= M) by nra.
  apply Rle_trans with (Rpower M (- m)).
  - apply Rle_Rpower; [exact M1|]. assert (0 < / Dsigma k) by (now apply Rinv_0_lt_compat). lra.
  - rewrite Rpower_mult_distr by lra. rewrite !Rpower_Ropp. apply Rinv_le_contravar; [unfold Rpower; apply exp_pos|].
    apply Rle_Rpower_l; lra.
Qed.

(** * Syntax-directed rules *)
Lemma O_plus' f g z z' : O f z -> O g z' -> O (fun q => Cplus (f q) (g q)) (Rmax z z').
Proof.
  intros H1 H2. apply O_plus; [apply (O_weaken _ z)|apply (O_weaken _ z')]; try assumption; [apply Rmax_l|apply Rmax_r].
Qed.
Lemma O_minus' f g z z' : O f z -> O g z' -> O (fun q => Cminus (f q) (g q)) (Rmax z z').
Proof. intros H1 H2. apply (O_plus' f (fun q => Copp (g q))); [exact H1|now apply O_opp]. Qed.
Lemma O_div f g z z' : O f z -> atleast g z' -> O (fun q => Cdiv (f q) (g q)) (z + - z').
Proof. intros H1 H2. apply (O_mult f (fun q => Cinv (g q))); [exact H1|now apply atleast_inv]. Qed.
Lemma atleast_mult f g z z' : atleast f z -> atleast g z' -> atleast (fun q => Cmult (f q) (g q)) (z + z').
Proof.
  intros (K & Q & HK & HQ & H) (K' & Q' & HK' & HQ' & H'). exists (K * K'), (Rmax Q Q').
  pose proof (Rmax_l Q Q'). pose proof (Rmax_r Q Q').
  split; [now apply Rmult_lt_0_compat|]. split; [lra|]. intros q Hq. rewrite Cmod_mult, Rpower_plus.
  specialize (H q ltac:(lra)). specialize (H' q ltac:(lra)).
  replace (K * K' * (Rpower q z * Rpower q z')) with ((K * Rpower q z) * (K' * Rpower q z')) by ring.
  apply Rmult_le_compat; try assumption; apply Rmult_le_pos; try apply Rpower_nonneg; lra.
Qed.
Lemma atleast_const c : c <> RtoC 0 -> atleast (fun _ => c) 0.
Proof.
  intros H. exists (Cmod c), 1. split; [now apply Cmod_gt_0|]. split; [lra|]. intros q Hq. rewrite Rpower_O by lra. lra.
Qed.
Lemma O_real f z : O f z -> forall q0, exists K Q, 0 <= K /\ 1 <= Q /\ q0 <= Q /\ forall q, Q < q -> Rabs (fst (f q)) <= K * Rpower q z.
Proof.
  intros (K & Q & HK & HQ & H) q0. exists K, (Rmax Q q0). pose proof (Rmax_l Q q0). pose proof (Rmax_r Q q0).
  split; [exact HK|]. split; [lra|]. split; [lra|]. intros q Hq. eapply Rle_trans; [|apply H; lra].
  apply Rsqr_incr_0_var; [|apply Cmod_ge_0]. unfold Cmod. rewrite Rsqr_sqrt.
  - rewrite <- Rsqr_abs. unfold Rsqr. pose proof (pow2_ge_0 (snd (f q))). lra.
  - pose proof (pow2_ge_0 (fst (f q))). pose proof (pow2_ge_0 (snd (f q))). lra.
Qed.
Lemma atleast_nz f z : atleast f z -> exists Q, 1 <= Q /\ forall q, Q < q -> f q <> RtoC 0.
Proof.
  intros (k & Q & Hk & HQ & H). exists Q. split; [exact HQ|]. intros q Hq E. specialize (H q Hq). rewrite E, Cmod_0 in H.
  assert (0 < k * Rpower q z) by (apply Rmult_lt_0_compat; [exact Hk|unfold Rpower; apply exp_pos]). lra.
Qed.

Ltac bigO_step :=
  match goal with
  | |- O (fun _ => ?c) _ => apply (O_const c)
  | |- O (fun q => (0, q)) _ => apply O_s
  | |- O (pair 0) _ => apply O_s
  | |- atleast (pair 0) _ => apply atleast_s
  | |- O (fun q => Cplus _ _) _ => eapply O_plus'
  | |- O (fun q => Cminus _ _) _ => eapply O_minus'
  | |- O (fun q => Copp _) _ => eapply O_opp
  | |- O (fun q => Cmult _ _) _ => eapply O_mult
  | |- O (fun q => Cdiv _ _) _ => eapply O_div
  | |- atleast (fun q => (0, q)) _ => apply atleast_s
  | |- atleast (fun q => Cmult _ _) _ => eapply atleast_mult
  | |- atleast (fun _ => ?c) _ => apply (atleast_const c)
  | H : O ?f _ |- O ?f _ => exact H
  | H : atleast ?f _ |- atleast ?f _ => exact H
  end.
Ltac orders := unfold Rmax; repeat destruct Rle_dec; lra.
Ltac nz := first [assumption | apply RtoC_neq; lra].
Ltac bigO := eapply O_weaken; [|solve [repeat bigO_step; try nz]]; try orders.

(** * Large wave numbers *)
Section High.
Variables (phi : R) (l : list species).
Hypothesis (Hphi : 0 < phi < 1) (Hg : Forall good_sp l) (Hwd : forall k, In k l -> 0 < sp_pdi k).
Lemma hd_pos k : In k l -> 0 < sp_d k.
Proof. intros H. rewrite Forall_forall in Hg. exact (proj2 (Hg k H)). Qed.
Lemma x_norm q k : sp_x q k = Cmult (RtoC 1) (Cmult (0, q) (RtoC (sp_d k))).
Proof. unfold sp_x. ring. Qed.
Lemma x_norm' q k : Copp (sp_x q k) = Cmult (RtoC (-1)) (Cmult (0, q) (RtoC (sp_d k))).
Proof. unfold sp_x. unfold Cmult, Copp, RtoC. cbn [fst snd]. apply (f_equal2 pair); ring. Qed.
Lemma O_f0 k : In k l -> O (fun q => sp_f0 q k) 0.
Proof.
  intros H. replace 0 with (- 0) by ring. eapply O_ext; [|apply (O_fm 1 k (tm_prod 0 (sp_t k)) 0); [now apply Hwd|now apply hd_pos|lra|now left]].
  intros q _. cbv beta. unfold sp_f0. now rewrite x_norm.
Qed.
Lemma O_f1 k : In k l -> O (fun q => sp_f1 q k) (-1).
Proof.
  intros H. eapply O_ext; [|apply (O_fm 1 k (tm_prod 1 (sp_t k)) 1); [now apply Hwd|now apply hd_pos|lra|now left]].
  intros q _. cbv beta. unfold sp_f1. now rewrite x_norm.
Qed.
Lemma O_f2 k : In k l -> O (fun q => sp_f2 q k) (-2).
Proof.
  intros H. eapply O_ext; [|apply (O_fm 1 k (sp_t2 k) 2); [now apply Hwd|now apply hd_pos|lra|now left]].
  intros q _. cbv beta. unfold sp_f2. now rewrite x_norm.
Qed.
Lemma O_f0i k : In k l -> O (fun q => sp_f0i q k) 0.
Proof.
  intros H. replace 0 with (- 0) by ring. eapply O_ext; [|apply (O_fm (-1) k (tm_prod 0 (sp_t k)) 0); [now apply Hwd|now apply hd_pos|lra|now right]].
  intros q _. cbv beta. unfold sp_f0i. now rewrite x_norm'.
Qed.
Lemma O_f1i k : In k l -> O (fun q => sp_f1i q k) (-1).
Proof.
  intros H. eapply O_ext; [|apply (O_fm (-1) k (tm_prod 1 (sp_t k)) 1); [now apply Hwd|now apply hd_pos|lra|now right]].
  intros q _. cbv beta. unfold sp_f1i. now rewrite x_norm'.
Qed.
Lemma O_f2i k : In k l -> O (fun q => sp_f2i q k) (-2).
Proof.
  intros H. eapply O_ext; [|apply (O_fm (-1) k (sp_t2 k) 2); [now apply Hwd|now apply hd_pos|lra|now right]].
  intros q _. cbv beta. unfold sp_f2i. now rewrite x_norm'.
Qed.
Lemma d_nz k : In k l -> RtoC (sp_d k) <> RtoC 0.
Proof. intros H. apply RtoC_neq. pose proof (hd_pos k H). lra. Qed.
Lemma Del_nz : RtoC (1 - phi) <> RtoC 0. Proof. apply RtoC_neq. lra. Qed.

Lemma O_Ia1 : O (fun q => Ialpha1 q phi l) (-2).
Proof.
  unfold Ialpha1. replace (-2) with (-3 + 1) by lra. apply O_mult; [bigO|]. apply O_sum. intros k Hk.
  pose proof (O_f0 k Hk) as H0. pose proof (O_f1 k Hk) as H1. unfold sp_x. bigO.
Qed.
Lemma O_Ia2 : O (fun q => Ialpha2 q phi l) (-2).
Proof.
  unfold Ialpha2. replace (-2) with (-3 + 1) by lra. apply O_mult; [bigO|]. apply O_sum. intros k Hk.
  pose proof (O_f1 k Hk) as H1. pose proof (O_f2 k Hk) as H2. unfold sp_x. bigO.
Qed.
Lemma O_Iw1 : O (fun q => Iw1 q phi l) (-4).
Proof. unfold Iw1. pose proof O_Ia1. pose proof O_Ia2. pose proof Del_nz. bigO. Qed.
Lemma O_Iw2 : O (fun q => Iw2 q phi l) (-4).
Proof.
  unfold Iw2. pose proof O_Ia1. pose proof O_Ia2. pose proof Del_nz.
  bigO.
Qed.
Lemma O_fa k : In k l -> O (fun q => sp_fa q k) (-2).
Proof. intros Hk. pose proof (O_f0 k Hk). pose proof (O_f1 k Hk). pose proof (d_nz k Hk). unfold sp_fa, sp_x. bigO. Qed.
Lemma O_fb k : In k l -> O (fun q => sp_fb q k) (-2).
Proof. intros Hk. pose proof (O_f1 k Hk). pose proof (O_f2 k Hk). pose proof (d_nz k Hk). unfold sp_fb, sp_x. bigO. Qed.
Lemma O_fc k : In k l -> O (fun q => sp_fc q k) (-1).
Proof. intros Hk. pose proof (O_f0 k Hk). pose proof (d_nz k Hk). unfold sp_fc, sp_x. bigO. Qed.
Lemma O_fd k : In k l -> O (fun q => sp_fd q k) (-1).
Proof. intros Hk. pose proof (O_f1 k Hk). pose proof (d_nz k Hk). unfold sp_fd, sp_x. bigO. Qed.
Lemma O_F11 : O (fun q => F11 q phi l) (-1).
Proof. unfold F11. apply O_sum. intros k Hk. pose proof (O_fa k Hk). bigO. Qed.
Lemma O_F12 : O (fun q => F12 q phi l) (-1).
Proof. unfold F12. apply O_sum. intros k Hk. pose proof (O_fa k Hk). pose proof (O_fc k Hk). bigO. Qed.
Lemma O_F21 : O (fun q => F21 q phi l) (-1).
Proof. unfold F21. apply O_sum. intros k Hk. pose proof (O_fb k Hk). bigO. Qed.
Lemma O_F22 : O (fun q => F22 q phi l) (-1).
Proof. unfold F22. apply O_sum. intros k Hk. pose proof (O_fb k Hk). pose proof (O_fd k Hk). bigO. Qed.

Lemma atleast_ext f g z : (forall q, 1 < q -> f q = g q) -> atleast f z -> atleast g z.
Proof. intros E (K & Q & HK & HQ & H). exists K, Q. do 2 (split; [assumption|]). intros q Hq. rewrite <- E by lra. now apply H. Qed.
Lemma al_det : atleast (fun q => FFdet q phi l) 0.
Proof.
  pose proof O_F11. pose proof O_F12. pose proof O_F21. pose proof O_F22.
  eapply atleast_ext; [|apply (atleast_plus (fun _ => RtoC 1) (fun q => (- F11 q phi l - F22 q phi l + F11 q phi l * F22 q phi l - F12 q phi l * F21 q phi l)%C) 0 (-1))].
  - intros q _. cbv beta. unfold FFdet, FF11, FF12, FF21, FF22. ring.
  - lra.
  - apply atleast_const. apply RtoC_neq. lra.
  - bigO.
Qed.
Lemma O_G11 : O (fun q => G11 q phi l) 0.
Proof. pose proof al_det. pose proof O_F22. unfold G11, FF22. bigO. Qed.
Lemma O_G12 : O (fun q => G12 q phi l) 0.
Proof. pose proof al_det. pose proof O_F12. unfold G12, FF12. bigO. Qed.
Lemma O_G21 : O (fun q => G21 q phi l) 0.
Proof. pose proof al_det. pose proof O_F21. unfold G21, FF21. bigO. Qed.
Lemma O_G22 : O (fun q => G22 q phi l) 0.
Proof. pose proof al_det. pose proof O_F11. unfold G22, FF11. bigO. Qed.

Lemma Csum_plus {A} (f g : A -> C) (ks : list A) :
  Csum (map (fun k => Cplus (f k) (g k)) ks) = Cplus (Csum (map f ks)) (Csum (map g ks)).
Proof. induction ks as [|k ks IH]; cbn [map Csum fold_right]; [ring|]. unfold Csum in IH. rewrite IH. ring. Qed.
Lemma Csum_RtoC {A} (f : A -> R) (ks : list A) : Csum (map (fun k => RtoC (f k)) ks) = RtoC (fold_right Rplus 0 (map f ks)).
Proof. induction ks as [|k ks IH]; cbn [map Csum fold_right]; [reflexivity|]. unfold Csum in IH. now rewrite IH, RtoC_plus. Qed.
Lemma weight_pos (ks : list species) : Forall good_sp ks -> (exists k, In k ks /\ 0 < sp_c k) ->
  0 < fold_right Rplus 0 (map (fun k => sp_c k * (sp_d k * sp_d k) * sp_t2 k) ks).
Proof.
  assert (T : forall k, 0 < sp_t2 k) by (intro k; unfold sp_t2, Dsigma; pose proof (pow2_ge_0 (sp_pdi k)); lra).
  assert (N : forall ks, Forall good_sp ks -> 0 <= fold_right Rplus 0 (map (fun k => sp_c k * (sp_d k * sp_d k) * sp_t2 k) ks)).
  { induction ks0 as [|k ks0 IH]; intros H; cbn [map fold_right]; [lra|]. pose proof (Forall_inv H) as [A B].
    specialize (IH (Forall_inv_tail H)). specialize (T k).
    assert (0 <= sp_c k * (sp_d k * sp_d k) * sp_t2 k) by (apply Rmult_le_pos; [apply Rmult_le_pos; nra|lra]). lra. }
  induction ks as [|k ks IH]; intros H (k0 & Hin & Hc); [destruct Hin|]. cbn [map fold_right].
  pose proof (Forall_inv H) as [A B]. specialize (N ks (Forall_inv_tail H)). specialize (T k).
  destruct Hin as [-> | Hin].
  - assert (0 < sp_c k0 * (sp_d k0 * sp_d k0) * sp_t2 k0) by (apply Rmult_lt_0_compat; [apply Rmult_lt_0_compat; nra|lra]). lra.
  - specialize (IH (Forall_inv_tail H) (ex_intro _ k0 (conj Hin Hc))).
    assert (0 <= sp_c k * (sp_d k * sp_d k) * sp_t2 k) by (apply Rmult_le_pos; [apply Rmult_le_pos; nra|lra]). lra.
Qed.

Hypothesis (Hrho : 0 < poly_rho phi l) (Hc : exists k, In k l /\ 0 < sp_c k).
Lemma al_I0 : atleast (fun q => I0 q phi l) (-4).
Proof.
  unfold I0. replace (-4) with (0 + (-1 + -1 + -1 + -1 + -1 + -1) + (1 + 1)) by lra.
  apply atleast_mult.
  - apply atleast_mult; [apply atleast_const; unfold Cdiv; rewrite <- RtoC_inv, <- RtoC_mult, <- RtoC_opp by lra; nz|].
    assert (T : atleast two_s (-1)).
    { exists 2, 1. split; [lra|]. split; [lra|]. intros q Hq. unfold two_s. rewrite Cmod_div by (apply s_neq; lra).
      rewrite Cmod_s, Cmod_R, Rabs_pos_eq by lra.
      change (-1) with (Ropp 1). rewrite Rpower_Ropp, Rpower_1 by lra. unfold Rdiv. lra. }
    repeat apply atleast_mult; exact T.
  - set (W := fold_right Rplus 0 (map (fun k => sp_c k * (sp_d k * sp_d k) * sp_t2 k) l)).
    assert (HW : 0 < W) by (now apply weight_pos).
    set (r := RtoC (poly_rho phi l)).
    eapply atleast_ext; [|apply (atleast_plus (fun q => Cmult (Cmult (0, q) (0, q)) (RtoC (- (poly_rho phi l * poly_rho phi l) * W / 4)))
      (fun q => Csum (map (fun k => RtoC (sp_c k) * (r * r) * (1 - 1 / 2 * (sp_f0i q k + sp_f0 q k)
        + sp_x q k / 2 * (sp_f1i q k - sp_f1 q k) - ((0, q) * (0, q) * (sp_d k * sp_d k)) / 8 * (sp_f2i q k + sp_f2 q k)))%C l)) (1 + 1) 0)].
    + intros q _. cbv beta. rewrite Cplus_comm.
      transitivity (Cplus (Csum (map (fun k => RtoC (sp_c k) * (r * r) * (1 - 1 / 2 * (sp_f0i q k + sp_f0 q k)
        + sp_x q k / 2 * (sp_f1i q k - sp_f1 q k) - ((0, q) * (0, q) * (sp_d k * sp_d k)) / 8 * (sp_f2i q k + sp_f2 q k)))%C l))
        (Csum (map (fun k => ((0, q) * (0, q) * RtoC (- (poly_rho phi l * poly_rho phi l) / 4) * RtoC (sp_c k * (sp_d k * sp_d k) * sp_t2 k))%C) l))).
      * apply (f_equal (Cplus _)).
        rewrite (Csum_scale species ((0, q) * (0, q) * RtoC (- (poly_rho phi l * poly_rho phi l) / 4))%C (fun k => RtoC (sp_c k * (sp_d k * sp_d k) * sp_t2 k)))
          by (intros; reflexivity).
        rewrite Csum_RtoC. fold W. symmetry. rewrite <- Cmult_assoc. symmetry. apply (f_equal (Cmult (Cmult (0, q) (0, q)))).
        rewrite <- RtoC_mult. apply (f_equal RtoC). field.
      * rewrite <- Csum_plus. apply (f_equal Csum). apply map_ext. intros k. fold r.
        assert (E8 : RtoC 8 = Cmult (RtoC 2) (RtoC 4)) by (rewrite <- RtoC_mult; f_equal; lra). rewrite E8.
        rewrite !RtoC_mult, RtoC_div, RtoC_opp, RtoC_mult by lra. fold r. field. split; apply RtoC_neq; lra.
    + lra.
    + replace (1 + 1) with (1 + 1 + 0) by lra. apply atleast_mult; [apply atleast_mult; apply atleast_s|]. apply atleast_const. apply RtoC_neq.
      assert (0 < poly_rho phi l * poly_rho phi l * W) by (repeat apply Rmult_lt_0_compat; assumption). lra.
    + apply O_sum. intros k Hk. pose proof (O_f0 k Hk). pose proof (O_f1 k Hk). pose proof (O_f2 k Hk).
      pose proof (O_f0i k Hk). pose proof (O_f1i k Hk). pose proof (O_f2i k Hk). unfold sp_x. bigO.
Qed.
Lemma O_h2 : exists K Q, 0 <= K /\ 1 <= Q /\ forall q, Q < q ->
  FFdet q phi l <> RtoC 0 /\ I0 q phi l <> RtoC 0 /\ Rabs (poly_h2 q phi l) <= K / (q * q).
Proof.
  pose proof O_Iw1. pose proof O_Iw2. pose proof O_Ia1. pose proof O_Ia2. pose proof O_G11. pose proof O_G12. pose proof O_G21. pose proof O_G22.
  pose proof al_I0 as HI.
  destruct (atleast_nz _ _ al_det) as (Q1 & HQ1 & N1). destruct (atleast_nz _ _ HI) as (Q2 & HQ2 & N2).
  assert (Ot : O (fun q => (Iw1 q phi l * G11 q phi l * Ialpha1 q phi l / I0 q phi l + Iw1 q phi l * G12 q phi l * Ialpha2 q phi l / I0 q phi l
       + Iw2 q phi l * G21 q phi l * Ialpha1 q phi l / I0 q phi l + Iw2 q phi l * G22 q phi l * Ialpha2 q phi l / I0 q phi l)%C) (-2)) by bigO.
  destruct (O_real _ _ Ot (Rmax Q1 Q2)) as (K & Q & HK & HQ & HQ3 & B). exists K, Q. split; [exact HK|]. split; [exact HQ|].
  intros q Hq. pose proof (Rmax_l Q1 Q2). pose proof (Rmax_r Q1 Q2).
  split; [apply N1; lra|]. split; [apply N2; lra|]. unfold poly_h2. eapply Rle_trans; [apply B; exact Hq|]. right.
  unfold Rdiv. f_equal. replace (-2) with (Ropp 1 + Ropp 1) by lra. rewrite Rpower_plus, Rpower_Ropp, Rpower_1 by lra. rewrite Rinv_mult. reflexivity.
Qed.
End High.

Theorem high_q phi l : 0 < phi < 1 -> (length l = 1 \/ length l = 2)%nat -> Forall good_sp l -> (forall k, In k l -> 0 < sp_pdi k) -> (exists k, In k l /\ 0 < sp_c k) ->
  exists K Q, 0 < Q /\ forall q, Q < q ->
  FFdet q phi l <> RtoC 0 /\ I0 q phi l <> RtoC 0 /\ Rabs (factor_poly_w q phi l - 1) <= K / q ^ 2.
Proof.
  intros Hp Hl Hg Hw Hc. destruct (O_h2 phi l Hp Hg Hw (poly_rho_pos phi l (proj1 Hp) Hg Hl) Hc) as (K & Q & HK & HQ & B).
  exists (2 * K), Q. split; [lra|]. intros q Hq. destruct (B q Hq) as (B1 & B2 & B3). split; [exact B1|]. split; [exact B2|].
  replace (2 * K / q ^ 2) with (2 * (K / (q * q))) by (field; lra).
  unfold factor_poly_w. cbv zeta. destruct (Rltb _ 0) eqn:E.
  - apply Rltb_true in E. revert B3 E. generalize (poly_h2 q phi l) (K / (q * q)). intros h b B3 E.
    unfold Rabs in *. repeat destruct Rcase_abs; lra.
  - revert B3. generalize (poly_h2 q phi l) (K / (q * q)). intros h b B3. replace (1 - 2 * h - 1) with (- (2 * h)) by ring.
    rewrite Rabs_Ropp, Rabs_mult, (Rabs_pos_eq 2) by lra. lra.
Qed.
