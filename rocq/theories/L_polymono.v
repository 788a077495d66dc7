(** The monodisperse limit of the polydisperse structure factor (C145). *)
From Verif Require Import Num L_num M_structure L_structure L_poly L_polylim L_polypos L_polymom.
From Coq Require Import Lra Lia Psatz.
From Coquelicot Require Import Complex.
Open Scope R_scope.

(** * The transforms of a narrow distribution *)
Definition eC (y : R) : C := (cos y, - sin y).
Lemma Cmod_eC_mult a b y : Cmod (a * cos y - b * sin y, a * sin y + b * cos y) = Cmod (a, b).
Proof.
  unfold Cmod. cbn [fst snd]. f_equal. pose proof (sin2_cos2 y) as H. unfold Rsqr in H.
  replace ((a * cos y - b * sin y) ^ 2 + (a * sin y + b * cos y) ^ 2) with ((a ^ 2 + b ^ 2) * (sin y * sin y + cos y * cos y)) by ring.
  rewrite H. ring.
Qed.
(** [grow] and [cgrow] with the bounds needed up to [q] only. *)
Lemma grow_to g g' M n q : 0 < q -> g 0 = 0 -> (forall c, 0 <= c <= q -> derivable_pt_lim g c (g' c)) ->
  (forall c, 0 <= c <= q -> g' c <= M * c ^ n) -> g q <= M * q ^ S n / INR (S n).
Proof.
  intros Hq H0 D B. set (h := fun c => g c - M / INR (S n) * c ^ S n).
  assert (HS : 0 < INR (S n)) by (apply lt_0_INR; lia).
  destruct (MVT_cor2 h (fun c => g' c - M / INR (S n) * (INR (S n) * c ^ n)) 0 q Hq) as (c & E & Hc).
  { intros c Hc. unfold h. apply (derivable_pt_lim_minus g (fun c => M / INR (S n) * c ^ S n)); [apply D; lra|].
    apply (derivable_pt_lim_scal (fun c => c ^ S n)). apply (derivable_pt_lim_pow c (S n)). }
  unfold h in E. rewrite H0, pow_i, Rmult_0_r, Rminus_0_r, Rminus_0_r in E by lia. specialize (B c ltac:(lra)).
  replace (M / INR (S n) * (INR (S n) * c ^ n)) with (M * c ^ n) in E by (field; lra).
  replace (M * q ^ S n / INR (S n)) with (M / INR (S n) * q ^ S n) by (field; lra). nra.
Qed.
Lemma cgrow_to u v u' v' M n q : 0 < q -> u 0 = 0 -> v 0 = 0 -> (forall c, 0 <= c <= q -> derivable_pt_lim u c (u' c)) -> (forall c, 0 <= c <= q -> derivable_pt_lim v c (v' c)) ->
  (forall c, 0 <= c <= q -> Cmod (u' c, v' c) <= M * c ^ n) -> Cmod (u q, v q) <= M * q ^ S n / INR (S n).
Proof.
  intros Hq Hu Hv Du Dv B. set (m := Cmod (u q, v q)).
  assert (Hm : 0 <= m) by apply Cmod_ge_0.
  assert (HM0 : 0 <= M * q ^ S n / INR (S n)).
  { pose proof (B q ltac:(lra)) as Bq. pose proof (Cmod_ge_0 (u' q, v' q)). replace (M * q ^ S n / INR (S n)) with ((M * q ^ n) * (q / INR (S n))) by (simpl pow; field; apply not_0_INR; lia).
    apply Rmult_le_pos; [lra|]. apply Rmult_le_pos; [lra|]. left. apply Rinv_0_lt_compat, lt_0_INR. lia. }
  destruct (Req_dec m 0) as [Z|Z]; [lra|].
  assert (Hm2 : u q ^ 2 + v q ^ 2 = m * m).
  { unfold m, Cmod. cbn [fst snd]. rewrite sqrt_sqrt; [reflexivity|]. pose proof (pow2_ge_0 (u q)). pose proof (pow2_ge_0 (v q)). lra. }
  set (e1 := u q / m). set (e2 := v q / m).
  assert (He : e1 ^ 2 + e2 ^ 2 = 1). { unfold e1, e2. replace ((u q / m) ^ 2 + (v q / m) ^ 2) with ((u q ^ 2 + v q ^ 2) / (m * m)) by (field; exact Z). rewrite Hm2. field. exact Z. }
  pose proof (grow_to (fun c => e1 * u c + e2 * v c) (fun c => e1 * u' c + e2 * v' c) M n q Hq) as G.
  replace m with (e1 * u q + e2 * v q).
  2:{ unfold e1, e2. replace (u q / m * u q + v q / m * v q) with ((u q ^ 2 + v q ^ 2) / m) by (field; exact Z). rewrite Hm2. field. exact Z. }
  apply G; [rewrite Hu, Hv; ring| |].
  - intros c Hc. apply (derivable_pt_lim_plus (fun c => e1 * u c) (fun c => e2 * v c)).
    + apply (derivable_pt_lim_scal u). now apply Du.
    + apply (derivable_pt_lim_scal v). now apply Dv.
  - intros c Hc. eapply Rle_trans; [now apply cauchy2|now apply B].
Qed.
Section Narrow.
Variable k : species.
Hypothesis (Hpd : 0 < sp_pdi k) (Hd : 0 < sp_d k).
Local Notation d := (sp_d k).
Local Notation p := (sp_pdi k).
Lemma f1_le q : Cmod (sp_f1 q k) <= 1.
Proof. pose proof (T_pos k Hpd). rewrite (f1_ri k Hpd). apply mod_bound; lra. Qed.
Lemma f2_le q : Cmod (sp_f2 q k) <= 1 + p ^ 2.
Proof.
  pose proof (T_pos k Hpd). rewrite (f2_ri k Hpd). replace (1 + p ^ 2) with (sp_t2 k) by (unfold sp_t2, Dsigma; ring).
  apply mod_bound; [lra|]. unfold sp_t2. pose proof (Dsigma_pos k Hpd). lra.
Qed.
Lemma Cmod_im t : 0 <= t -> Cmod (0, t) = t.
Proof. intros H. unfold Cmod. cbn [fst snd]. replace (0 ^ 2 + t ^ 2) with (t ^ 2) by ring. now apply sqrt_pow2. Qed.
Lemma f1_f0 q : 0 <= q -> Cmod (Cminus (sp_f1 q k) (sp_f0 q k)) <= q * d * p ^ 2.
Proof.
  intros Hq. destruct (orders_related k Hpd q) as [E _].
  assert (H0 : 0 <= q * d * p ^ 2) by (apply Rmult_le_pos; [apply Rmult_le_pos; lra|apply pow2_ge_0]).
  replace (Cminus (sp_f1 q k) (sp_f0 q k)) with (Copp (Cmult (0, q * d * p ^ 2) (sp_f1 q k))).
  - rewrite Cmod_opp, Cmod_mult, Cmod_im by exact H0. pose proof (f1_le q). pose proof (Cmod_ge_0 (sp_f1 q k)). nra.
  - rewrite <- E. unfold Cmult, Cminus, Copp, Cplus. cbn [fst snd]. apply (f_equal2 pair); ring.
Qed.
Lemma f2_f1 q : 0 <= q -> Cmod (Cminus (sp_f2 q k) (sp_f1 q k)) <= p ^ 2 * (1 + q * d * (1 + p ^ 2)).
Proof.
  intros Hq. destruct (orders_related k Hpd q) as [_ E]. pose proof (pow2_ge_0 p) as Hp2.
  assert (H0 : 0 <= q * d * p ^ 2) by (apply Rmult_le_pos; [apply Rmult_le_pos; lra|exact Hp2]).
  replace (Cminus (sp_f2 q k) (sp_f1 q k)) with (Cminus (Cmult (RtoC (p ^ 2)) (sp_f1 q k)) (Cmult (0, q * d * p ^ 2) (sp_f2 q k))).
  - eapply Rle_trans; [apply Cmod_triangle|]. rewrite Cmod_opp, !Cmod_mult, Cmod_im, Cmod_R, Rabs_pos_eq by assumption.
    pose proof (f1_le q). pose proof (f2_le q). pose proof (Cmod_ge_0 (sp_f1 q k)). pose proof (Cmod_ge_0 (sp_f2 q k)). nra.
  - assert (X : Cminus (Cmult (1, q * d * p ^ 2) (sp_f2 q k)) (Cmult (RtoC (1 + p ^ 2)) (sp_f1 q k)) = RtoC 0) by (rewrite E; ring).
    transitivity (Cminus (Cminus (sp_f2 q k) (sp_f1 q k)) (Cminus (Cmult (1, q * d * p ^ 2) (sp_f2 q k)) (Cmult (RtoC (1 + p ^ 2)) (sp_f1 q k)))).
    + unfold Cmult, Cminus, Copp, Cplus, RtoC. cbn [fst snd]. apply (f_equal2 pair); ring.
    + rewrite X. ring.
Qed.
Lemma d_lin c : derivable_pt_lim (fun q => q * d) c d.
Proof.
  pose proof (derivable_pt_lim_mult id (fct_cte d) c 1 0 (derivable_pt_lim_id c) (derivable_pt_lim_const d c)) as H.
  unfold id, fct_cte in H. replace (1 * d + c * 0) with d in H by ring. exact H.
Qed.
Lemma d_cosl c : derivable_pt_lim (fun q => cos (q * d)) c (- sin (c * d) * d).
Proof. apply (derivable_pt_lim_comp (fun q => q * d) cos); [apply d_lin|apply derivable_pt_lim_cos]. Qed.
Lemma d_sinl c : derivable_pt_lim (fun q => sin (q * d)) c (cos (c * d) * d).
Proof. apply (derivable_pt_lim_comp (fun q => q * d) sin); [apply d_lin|apply derivable_pt_lim_sin]. Qed.
Lemma dlim_eq f x a b : a = b -> derivable_pt_lim f x a -> derivable_pt_lim f x b.
Proof. now intros ->. Qed.
Lemma f0_e q : 0 < q -> Cmod (Cminus (sp_f0 q k) (eC (q * d))) <= d ^ 2 * p ^ 2 * q ^ 2 / 2.
Proof.
  intros Hq.
  set (U := fun c => fst (sp_f0 c k) * cos (c * d) - snd (sp_f0 c k) * sin (c * d) - 1).
  set (V := fun c => fst (sp_f0 c k) * sin (c * d) + snd (sp_f0 c k) * cos (c * d)).
  set (a := fun c => fst (sp_f1 c k) - fst (sp_f0 c k)). set (b := fun c => snd (sp_f1 c k) - snd (sp_f0 c k)).
  assert (B : Cmod (U q, V q) <= d ^ 2 * p ^ 2 * q ^ 2 / INR 2).
  { apply (cgrow U V (fun c => d * (b c * cos (c * d) + a c * sin (c * d))) (fun c => d * (b c * sin (c * d) - a c * cos (c * d))) (d ^ 2 * p ^ 2) 1); [| | | | |exact Hq].
    - unfold U. destruct (moments k Hpd 0) as ((-> & _) & _). rewrite Rmult_0_l, sin_0, cos_0. cbn [fst snd RtoC]. ring.
    - unfold V. destruct (moments k Hpd 0) as ((-> & _) & _). rewrite Rmult_0_l, sin_0, cos_0. cbn [fst snd RtoC]. ring.
    - intros c _. destruct (moments k Hpd c) as (_ & (D1 & D2) & _). unfold U.
      eapply dlim_eq; [|apply (derivable_pt_lim_minus (fun c => fst (sp_f0 c k) * cos (c * d) - snd (sp_f0 c k) * sin (c * d)) (fun _ => 1)); [|apply derivable_pt_lim_const]].
      2:{ apply (derivable_pt_lim_minus (fun c => fst (sp_f0 c k) * cos (c * d)) (fun c => snd (sp_f0 c k) * sin (c * d))).
          - apply (derivable_pt_lim_mult (fun c => fst (sp_f0 c k)) (fun c => cos (c * d))); [exact D1|apply d_cosl].
          - apply (derivable_pt_lim_mult (fun c => snd (sp_f0 c k)) (fun c => sin (c * d))); [exact D2|apply d_sinl]. }
      unfold a, b. ring.
    - intros c _. destruct (moments k Hpd c) as (_ & (D1 & D2) & _). unfold V.
      eapply dlim_eq; [|apply (derivable_pt_lim_plus (fun c => fst (sp_f0 c k) * sin (c * d)) (fun c => snd (sp_f0 c k) * cos (c * d)))].
      2:{ apply (derivable_pt_lim_mult (fun c => fst (sp_f0 c k)) (fun c => sin (c * d))); [exact D1|apply d_sinl]. }
      2:{ apply (derivable_pt_lim_mult (fun c => snd (sp_f0 c k)) (fun c => cos (c * d))); [exact D2|apply d_cosl]. }
      unfold a, b. ring.
    - intros c Hc. rewrite Cmod_scale2 by lra.
      replace (b c * cos (c * d) + a c * sin (c * d)) with (b c * cos (c * d) - (- a c) * sin (c * d)) by ring.
      replace (b c * sin (c * d) - a c * cos (c * d)) with (b c * sin (c * d) + (- a c) * cos (c * d)) by ring.
      rewrite Cmod_eC_mult, Cmod_turn. pose proof (f1_f0 c Hc) as F.
      replace (Cminus (sp_f1 c k) (sp_f0 c k)) with (a c, b c) in F by (unfold a, b, Cminus, Cplus, Copp; cbn [fst snd]; reflexivity).
      replace (d ^ 2 * p ^ 2 * c ^ 1) with (d * (c * d * p ^ 2)) by ring. apply Rmult_le_compat_l; lra. }
  replace (INR 2) with 2 in B by (simpl; ring). eapply Rle_trans; [|exact B]. right.
  unfold Cminus, Cplus, Copp, eC. cbn [fst snd].
  rewrite <- (Cmod_eC_mult (fst (sp_f0 q k) + - cos (q * d)) (snd (sp_f0 q k) + - - sin (q * d)) (q * d)).
  apply (f_equal Cmod). unfold U, V. pose proof (sin2_cos2 (q * d)) as Y. unfold Rsqr in Y.
  apply (f_equal2 pair); [|ring]. rewrite <- Y. ring.
Qed.
Lemma f1_e q : 0 <= q -> Cmod (Cminus (sp_f1 q k) (eC (q * d))) <= q * d * p ^ 2 * (1 + d * q / 2).
Proof.
  intros Hq. pose proof (pow2_ge_0 p). destruct (Rle_lt_or_eq_dec 0 q Hq) as [Hq'|<-].
  - replace (Cminus (sp_f1 q k) (eC (q * d))) with (Cplus (Cminus (sp_f1 q k) (sp_f0 q k)) (Cminus (sp_f0 q k) (eC (q * d)))) by ring.
    eapply Rle_trans; [apply Cmod_triangle|]. pose proof (f1_f0 q Hq). pose proof (f0_e q Hq'). 
    replace (q * d * p ^ 2 * (1 + d * q / 2)) with (q * d * p ^ 2 + d ^ 2 * p ^ 2 * q ^ 2 / 2) by field. lra.
  - destruct (moments k Hpd 0) as ((_ & -> & _) & _). unfold eC. rewrite !Rmult_0_l, cos_0, sin_0. unfold Cmod, Cminus, Cplus, Copp, RtoC. cbn [fst snd].
    replace ((1 + - (1)) ^ 2 + (0 + - - 0) ^ 2) with 0 by ring. rewrite sqrt_0. lra.
Qed.
Lemma f0_e2 q : 0 < q -> Cmod (Cminus (sp_f0 q k) (Cmult (eC (q * d)) (RtoC (1 - d ^ 2 * p ^ 2 * q ^ 2 / 2)))) <= d ^ 3 * p ^ 4 * (1 + d * q / 2) * q ^ 3 / 3.
Proof.
  intros Hq.
  set (U := fun c => fst (sp_f0 c k) * cos (c * d) - snd (sp_f0 c k) * sin (c * d) - 1 + d ^ 2 * p ^ 2 / 2 * c ^ 2).
  set (V := fun c => fst (sp_f0 c k) * sin (c * d) + snd (sp_f0 c k) * cos (c * d)).
  set (t := fun c => c * d * p ^ 2).
  assert (AB : forall c, fst (sp_f0 c k) = fst (sp_f1 c k) - t c * snd (sp_f1 c k) /\ snd (sp_f0 c k) = snd (sp_f1 c k) + t c * fst (sp_f1 c k)).
  { intros c. destruct (orders_related k Hpd c) as [E _]. rewrite <- E. unfold t, Cmult. cbn [fst snd]. split; ring. }
  assert (B : Cmod (U q, V q) <= d ^ 3 * p ^ 4 * (1 + d * q / 2) * q ^ 3 / INR 3).
  { apply (cgrow_to U V (fun c => d * t c * (1 - (fst (sp_f1 c k) * cos (c * d) - snd (sp_f1 c k) * sin (c * d)))) (fun c => d * t c * (- (fst (sp_f1 c k) * sin (c * d) + snd (sp_f1 c k) * cos (c * d)))) (d ^ 3 * p ^ 4 * (1 + d * q / 2)) 2); [exact Hq| | | | |].
    - unfold U. destruct (moments k Hpd 0) as ((-> & _) & _). rewrite Rmult_0_l, sin_0, cos_0. cbn [fst snd RtoC]. ring.
    - unfold V. destruct (moments k Hpd 0) as ((-> & _) & _). rewrite Rmult_0_l, sin_0, cos_0. cbn [fst snd RtoC]. ring.
    - intros c _. destruct (moments k Hpd c) as (_ & (D1 & D2) & _). unfold U.
      eapply dlim_eq; [|apply (derivable_pt_lim_plus (fun c => fst (sp_f0 c k) * cos (c * d) - snd (sp_f0 c k) * sin (c * d) - 1) (fun c => d ^ 2 * p ^ 2 / 2 * c ^ 2));
        [apply (derivable_pt_lim_minus (fun c => fst (sp_f0 c k) * cos (c * d) - snd (sp_f0 c k) * sin (c * d)) (fun _ => 1)); [|apply derivable_pt_lim_const]|
         apply (derivable_pt_lim_scal (fun c => c ^ 2)); apply (derivable_pt_lim_pow c 2)]].
      2:{ apply (derivable_pt_lim_minus (fun c => fst (sp_f0 c k) * cos (c * d)) (fun c => snd (sp_f0 c k) * sin (c * d))).
          - apply (derivable_pt_lim_mult (fun c => fst (sp_f0 c k)) (fun c => cos (c * d))); [exact D1|apply d_cosl].
          - apply (derivable_pt_lim_mult (fun c => snd (sp_f0 c k)) (fun c => sin (c * d))); [exact D2|apply d_sinl]. }
      destruct (AB c) as [-> ->]. replace (INR 2) with 2 by (simpl; ring). simpl (Init.Nat.pred 2). unfold t. field.
    - intros c _. destruct (moments k Hpd c) as (_ & (D1 & D2) & _). unfold V.
      eapply dlim_eq; [|apply (derivable_pt_lim_plus (fun c => fst (sp_f0 c k) * sin (c * d)) (fun c => snd (sp_f0 c k) * cos (c * d)))].
      2:{ apply (derivable_pt_lim_mult (fun c => fst (sp_f0 c k)) (fun c => sin (c * d))); [exact D1|apply d_sinl]. }
      2:{ apply (derivable_pt_lim_mult (fun c => snd (sp_f0 c k)) (fun c => cos (c * d))); [exact D2|apply d_cosl]. }
      destruct (AB c) as [-> ->]. unfold t. ring.
    - intros c [Hc Hcq]. pose proof (pow2_ge_0 p) as Hp2.
      assert (Ht : 0 <= t c) by (unfold t; apply Rmult_le_pos; [apply Rmult_le_pos; lra|exact Hp2]).
      rewrite Cmod_scale2 by (apply Rmult_le_pos; lra).
      assert (F : Cmod (1 - (fst (sp_f1 c k) * cos (c * d) - snd (sp_f1 c k) * sin (c * d)), - (fst (sp_f1 c k) * sin (c * d) + snd (sp_f1 c k) * cos (c * d))) <= t c * (1 + d * c / 2)).
      { eapply Rle_trans; [|exact (f1_e c Hc)]. right.
        unfold Cminus, Cplus, Copp, eC. cbn [fst snd].
        rewrite <- (Cmod_eC_mult (fst (sp_f1 c k) + - cos (c * d)) (snd (sp_f1 c k) + - - sin (c * d)) (c * d)).
        rewrite <- (Cmod_opp ((fst (sp_f1 c k) + - cos (c * d)) * cos (c * d) - (snd (sp_f1 c k) + - - sin (c * d)) * sin (c * d), _)).
        apply (f_equal Cmod). unfold Copp. cbn [fst snd]. pose proof (sin2_cos2 (c * d)) as Y. unfold Rsqr in Y.
        apply (f_equal2 pair); [|ring]. rewrite <- Y at 1. ring. }
      apply Rle_trans with (d * t c * (t c * (1 + d * c / 2))); [apply Rmult_le_compat_l; [apply Rmult_le_pos; lra|exact F]|].
      replace (d ^ 3 * p ^ 4 * (1 + d * q / 2) * c ^ 2) with (d * t c * (t c * (1 + d * q / 2))) by (unfold t; ring).
      apply Rmult_le_compat_l; [apply Rmult_le_pos; lra|]. apply Rmult_le_compat_l; [exact Ht|]. nra. }
  replace (INR 3) with 3 in B by (simpl; ring). eapply Rle_trans; [|exact B]. right.
  unfold Cminus, Cplus, Copp, Cmult, eC, RtoC. cbn [fst snd].
  match goal with |- Cmod (?x, ?y) = _ => rewrite <- (Cmod_eC_mult x y (q * d)) end.
  apply (f_equal Cmod). unfold U, V. pose proof (sin2_cos2 (q * d)) as Y. unfold Rsqr in Y.
  apply (f_equal2 pair); [|ring]. set (m := d ^ 2 * p ^ 2). set (cc := cos (q * d)) in *. set (ss := sin (q * d)) in *.
  transitivity (fst (sp_f0 q k) * cc - snd (sp_f0 q k) * ss - (ss * ss + cc * cc) * (1 - m * q ^ 2 / 2)); [ring|rewrite Y; field].
Qed.
End Narrow.

(** * Functions that tend to a constant like 1/u *)
Definition near (f : R -> C) (c : C) : Prop := O (fun u => Cminus (f u) c) (-1).
Lemma near_eq f c c' : near f c -> c = c' -> near f c'.
Proof. now intros H <-. Qed.
Lemma near_ext f g c : (forall u, 1 < u -> f u = g u) -> near f c -> near g c.
Proof. intros E. apply O_ext. intros u Hu. now rewrite E. Qed.
Lemma near_const c : near (fun _ => c) c.
Proof. exists 0, 1. split; [lra|]. split; [lra|]. intros u Hu. replace (Cminus c c) with (RtoC 0) by ring. rewrite Cmod_0. lra. Qed.
Lemma near_O f c : near f c -> O f 0.
Proof.
  intros H. apply (O_ext (fun u => Cplus (Cminus (f u) c) c)); [intros u _; cbv beta; ring|].
  apply O_plus; [|apply O_const]. eapply O_weaken; [|exact H]. lra.
Qed.
Lemma near_0 f : near f (RtoC 0) -> O f (-1).
Proof. intros H. eapply O_ext; [|exact H]. intros u _. cbv beta. ring. Qed.
Lemma near_plus f g c e : near f c -> near g e -> near (fun u => Cplus (f u) (g u)) (Cplus c e).
Proof. intros H1 H2. eapply O_ext; [|exact (O_plus _ _ _ H1 H2)]. intros u _; cbv beta; ring. Qed.
Lemma near_opp f c : near f c -> near (fun u => Copp (f u)) (Copp c).
Proof. intros H. eapply O_ext; [|exact (O_opp _ _ H)]. intros u _; cbv beta; ring. Qed.
Lemma near_minus f g c e : near f c -> near g e -> near (fun u => Cminus (f u) (g u)) (Cminus c e).
Proof. intros H1 H2. eapply O_ext; [|exact (O_minus _ _ _ H1 H2)]. intros u _; cbv beta; ring. Qed.
Lemma near_mult f g c e : near f c -> near g e -> near (fun u => Cmult (f u) (g u)) (Cmult c e).
Proof.
  intros H1 H2. pose proof (near_O _ _ H2) as B.
  apply (O_ext (fun u => Cplus (Cmult (Cminus (f u) c) (g u)) (Cmult c (Cminus (g u) e)))); [intros u _; cbv beta; ring|].
  apply O_plus; [|apply O_scal; exact H2]. replace (-1) with (-1 + 0) by ring. now apply O_mult.
Qed.
Lemma near_al g e : near g e -> e <> RtoC 0 -> atleast g 0.
Proof.
  intros H N. eapply atleast_ext; [|apply (atleast_plus (fun _ => e) (fun u => Cminus (g u) e) 0 (-1)); [lra|now apply atleast_const|exact H]].
  intros u _. cbv beta. ring.
Qed.
Lemma near_inv g e : near g e -> e <> RtoC 0 -> near (fun u => Cinv (g u)) (Cinv e).
Proof.
  intros H N. pose proof (near_al g e H N) as A. pose proof (atleast_inv _ _ A) as I. rewrite Ropp_0 in I.
  destruct (atleast_nz _ _ A) as (Q & HQ & NZ).
  assert (X : O (fun u => Cmult (Copp (Cinv e)) (Cmult (Cminus (g u) e) (Cinv (g u)))) (-1)).
  { apply O_scal. replace (-1) with (-1 + 0) by ring. now apply O_mult. }
  destruct X as (K & Q' & HK & HQ' & B). exists K, (Rmax Q Q'). pose proof (Rmax_l Q Q'). pose proof (Rmax_r Q Q').
  split; [exact HK|]. split; [lra|]. intros u Hu. specialize (B u ltac:(lra)). specialize (NZ u ltac:(lra)).
  eapply Rle_trans; [right|exact B]. apply (f_equal Cmod). field. split; assumption.
Qed.
Lemma near_div f g c e : near f c -> near g e -> e <> RtoC 0 -> near (fun u => Cdiv (f u) (g u)) (Cdiv c e).
Proof. intros H1 H2 N. apply near_mult; [exact H1|now apply near_inv]. Qed.
Lemma near_bound f c K : 0 <= K -> (forall u, 1 < u -> Cmod (Cminus (f u) c) <= K * / u) -> near f c.
Proof.
  intros HK H. exists K, 1. split; [exact HK|]. split; [lra|]. intros u Hu. change (-1) with (- (1)).
  rewrite Rpower_Ropp, Rpower_1 by lra. now apply H.
Qed.
Lemma near_trans f g c : O (fun u => Cminus (f u) (g u)) (-1) -> near g c -> near f c.
Proof. intros H1 H2. eapply O_ext; [|exact (O_plus _ _ _ H1 H2)]. intros u _; cbv beta; ring. Qed.
Lemma O_bound f K : 0 <= K -> (forall u, 1 < u -> Cmod (f u) <= K * / u) -> O f (-1).
Proof.
  intros HK H. exists K, 1. split; [exact HK|]. split; [lra|]. intros u Hu. change (-1) with (- (1)).
  rewrite Rpower_Ropp, Rpower_1 by lra. now apply H.
Qed.
Lemma near_RtoC f c K : 0 <= K -> (forall u, 1 < u -> Rabs (f u - c) <= K * / u) -> near (fun u => RtoC (f u)) (RtoC c).
Proof. intros HK H. apply (near_bound _ _ K HK). intros u Hu. rewrite <- RtoC_minus, Cmod_R. now apply H. Qed.

Ltac near_step :=
  match goal with
  | H : near ?f _ |- near ?f _ => exact H
  | |- near (fun _ => ?c) _ => apply (near_const c)
  | |- near (fun q => Cplus _ _) _ => eapply near_plus
  | |- near (fun q => Cminus _ _) _ => eapply near_minus
  | |- near (fun q => Copp _) _ => eapply near_opp
  | |- near (fun q => Cmult _ _) _ => eapply near_mult
  | |- near (fun q => Cdiv _ _) _ => eapply near_div
  end.
Ltac nzp := first [assumption | repeat (apply Cmult_neq_0); nz].
Ltac nears := eapply near_eq; [solve [repeat near_step; try nzp]|].

(** * The limit *)
Section Mono.
Variables (q phi : R).
Hypothesis (Hq : 0 < q) (Hphi : 0 < phi < 1).
(** Unit diameter, width 1/sqrt u. *)
Definition ku (u : R) : species := mkSp 1 1 (/ sqrt u).
Definition v : R := phi / (1 - phi).
Local Notation s := ((0, q) : C).
Local Notation E := (eC q).
Lemma ku_w u : 1 < u -> (/ sqrt u) ^ 2 = / u.
Proof. intros H. rewrite pow_inv, pow2_sqrt by lra. reflexivity. Qed.
Lemma ku_pos u : 1 < u -> 0 < sp_pdi (ku u).
Proof. intros H. cbn. apply Rinv_0_lt_compat, sqrt_lt_R0. lra. Qed.
Lemma iu u : 1 < u -> 0 < / u < 1.
Proof. intros H. split; [apply Rinv_0_lt_compat; lra|]. rewrite <- Rinv_1. apply Rinv_lt_contravar; lra. Qed.
Lemma ku_D u : 1 < u -> Dsigma (ku u) = / u.
Proof. intros H. unfold Dsigma. cbn [sp_pdi ku]. now apply ku_w. Qed.

Lemma n_f0 : near (fun u => sp_f0 q (ku u)) E.
Proof.
  apply (near_bound _ _ (q ^ 2 / 2)); [pose proof (pow2_ge_0 q); lra|]. intros u Hu.
  pose proof (f0_e (ku u) (ku_pos u Hu) Rlt_0_1 q Hq) as B. cbn [sp_d sp_pdi ku] in B. rewrite Rmult_1_r, ku_w in B by exact Hu.
  eapply Rle_trans; [exact B|]. right. field. lra.
Qed.
Lemma n_f1 : near (fun u => sp_f1 q (ku u)) E.
Proof.
  eapply near_trans; [|exact n_f0]. apply (O_bound _ q); [lra|]. intros u Hu.
  pose proof (f1_f0 (ku u) (ku_pos u Hu) Rlt_0_1 q ltac:(lra)) as B. cbn [sp_d sp_pdi ku] in B. rewrite Rmult_1_r, ku_w in B by exact Hu. exact B.
Qed.
Lemma n_f2 : near (fun u => sp_f2 q (ku u)) E.
Proof.
  eapply near_trans; [|exact n_f1]. apply (O_bound _ (1 + 2 * q)); [lra|]. intros u Hu.
  pose proof (f2_f1 (ku u) (ku_pos u Hu) Rlt_0_1 q ltac:(lra)) as B. cbn [sp_d sp_pdi ku] in B. rewrite Rmult_1_r, ku_w in B by exact Hu.
  eapply Rle_trans; [exact B|]. pose proof (iu u Hu). rewrite (Rmult_comm (1 + 2 * q)). apply Rmult_le_compat_l; nra.
Qed.
Lemma fi_conj u : 1 < u -> sp_f0i q (ku u) = Cconj (sp_f0 q (ku u)) /\ sp_f1i q (ku u) = Cconj (sp_f1 q (ku u)) /\ sp_f2i q (ku u) = Cconj (sp_f2 q (ku u)).
Proof.
  intros Hu. unfold sp_f0i, sp_f1i, sp_f2i, sp_f0, sp_f1, sp_f2.
  rewrite !(fm_minus q (ku u) (ku_pos u Hu)), !(fm_plus q (ku u) (ku_pos u Hu)). unfold Cconj. cbn [fst snd]. rewrite !Ropp_involutive. now repeat split.
Qed.
Lemma near_conj f c : near f c -> near (fun u => Cconj (f u)) (Cconj c).
Proof.
  intros (K & Q & HK & HQ & H). exists K, Q. split; [exact HK|]. split; [exact HQ|]. intros u Hu. specialize (H u Hu).
  replace (Cminus (Cconj (f u)) (Cconj c)) with (Cconj (Cminus (f u) c)) by (unfold Cminus, Cconj, Cplus, Copp; cbn [fst snd]; apply (f_equal2 pair); ring).
  replace (Cmod (Cconj (Cminus (f u) c))) with (Cmod (Cminus (f u) c)); [exact H|]. unfold Cmod, Cconj. cbn [fst snd]. f_equal. ring.
Qed.
Lemma n_f0i : near (fun u => sp_f0i q (ku u)) (Cconj E).
Proof. eapply near_ext; [|exact (near_conj _ _ n_f0)]. intros u Hu. cbv beta. symmetry. apply (fi_conj u Hu). Qed.
Lemma n_f1i : near (fun u => sp_f1i q (ku u)) (Cconj E).
Proof. eapply near_ext; [|exact (near_conj _ _ n_f1)]. intros u Hu. cbv beta. symmetry. apply (fi_conj u Hu). Qed.
Lemma n_f2i : near (fun u => sp_f2i q (ku u)) (Cconj E).
Proof. eapply near_ext; [|exact (near_conj _ _ n_f2)]. intros u Hu. cbv beta. symmetry. apply (fi_conj u Hu). Qed.
Lemma n_t2 : near (fun u => RtoC (sp_t2 (ku u))) (RtoC 1).
Proof.
  apply (near_RtoC _ _ 1); [lra|]. intros u Hu. unfold sp_t2. rewrite ku_D by exact Hu. pose proof (iu u Hu).
  replace (/ u + 1 - 1) with (/ u) by ring. rewrite Rabs_pos_eq; lra.
Qed.
Lemma t3_bounds u : 1 < u -> 1 <= sp_t3 (ku u) <= 1 + 5 * / u.
Proof. intros Hu. unfold sp_t3. rewrite ku_D by exact Hu. pose proof (iu u Hu). nra. Qed.
Lemma n_rho : near (fun u => RtoC (poly_rho phi [ku u])) (RtoC (6 * phi / PI)).
Proof.
  pose proof PI_RGT_0 as HP. assert (Hr : 0 < 6 * phi / PI) by (apply Rdiv_lt_0_compat; lra).
  apply (near_RtoC _ _ (5 * (6 * phi / PI))); [lra|]. intros u Hu. cbn [poly_rho]. unfold rho_of. cbn [sp_d ku].
  pose proof (t3_bounds u Hu) as T. pose proof (iu u Hu). set (t := sp_t3 (ku u)) in *.
  replace (6 * phi / (t * PI * 1 ^ 3) - 6 * phi / PI) with (- (6 * phi / PI * ((t - 1) / t))) by (field; split; lra).
  rewrite Rabs_Ropp, Rabs_pos_eq.
  - replace (5 * (6 * phi / PI) * / u) with (6 * phi / PI * (5 * / u)) by ring. apply Rmult_le_compat_l; [lra|].
    apply (Rmult_le_reg_r t); [lra|].
    replace ((t - 1) / t * t) with (t - 1) by (field; lra). assert (5 * / u <= 5 * / u * t) by nra. lra.
  - apply Rmult_le_pos; [lra|]. apply Rmult_le_pos; [lra|]. left. apply Rinv_0_lt_compat. lra.
Qed.
Lemma n_zeta : near (fun u => RtoC (poly_zeta2 phi (poly_rho phi [ku u]))) (RtoC (6 * phi / PI)).
Proof.
  assert (Hs : near (fun u => RtoC (poly_sigma0 phi (poly_rho phi [ku u]))) (RtoC 1)).
  { apply (near_RtoC _ _ 5); [lra|]. intros u Hu. pose proof (t3_bounds u Hu) as T. pose proof (iu u Hu). pose proof PI_RGT_0 as HP.
    unfold poly_sigma0. cbn [poly_rho]. unfold rho_of. cbn [sp_d ku].
    replace (6 * phi / (PI * (6 * phi / (sp_t3 (ku u) * PI * 1 ^ 3)))) with (sp_t3 (ku u)) by (field; repeat split; lra).
    set (t := sp_t3 (ku u)) in *.
    assert (L : 1 <= Rpower t (1 / 3)). { apply Rle_trans with (Rpower t 0); [rewrite Rpower_O; lra|apply Rle_Rpower; lra]. }
    assert (U : Rpower t (1 / 3) <= t). { apply Rle_trans with (Rpower t 1); [apply Rle_Rpower; lra|rewrite Rpower_1; lra]. }
    rewrite Rabs_pos_eq; lra. }
  pose proof n_rho. unfold poly_zeta2.
  apply (near_ext (fun u => Cmult (RtoC (poly_rho phi [ku u])) (Cmult (RtoC (poly_sigma0 phi (poly_rho phi [ku u]))) (RtoC (poly_sigma0 phi (poly_rho phi [ku u])))))).
  { intros u _. rewrite <- !RtoC_mult. f_equal. ring. }
  nears. ring.
Qed.

(** ** The limits of the intermediate quantities *)
Local Open Scope C_scope.
Definition la : C := (1 - s / 2 - E - s / 2 * E) / (s * s * s).
Definition lc : C := (1 - s - E) / (s * s).
Definition ld : C := 1 - 12 * v * la - (36 * v * v * la + 6 * v * lc).
Definition li : C := - (12 * (6 * phi / PI)%R * la).
Definition lB : C := 1 - 1 / 2 * (Cconj E + E) + s / 2 * (Cconj E - E) - s * s / 8 * (Cconj E + E + 2).
Lemma s_nz : s <> RtoC 0. Proof. apply s_neq. lra. Qed.
Lemma x_ku u : sp_x q (ku u) = s. Proof. unfold sp_x. cbn [sp_d ku]. ring. Qed.
Ltac near_go := 
  pose proof n_f0; pose proof n_f1; pose proof n_f2; pose proof n_f0i; pose proof n_f1i; pose proof n_f2i; pose proof n_t2; pose proof n_rho; pose proof n_zeta; pose proof s_nz;
  nears.
Lemma nz2 : RtoC 2 <> RtoC 0. Proof. nz. Qed.
Lemma nzD : RtoC (1 - phi) <> RtoC 0. Proof. nz. Qed.
Lemma nzpi : RtoC PI <> RtoC 0. Proof. pose proof PI_RGT_0. nz. Qed.
Lemma e4 : RtoC 4 = 2 * 2. Proof. rewrite <- RtoC_mult. f_equal; lra. Qed.
Lemma e6 : RtoC 6 = 2 * 3. Proof. rewrite <- RtoC_mult. f_equal; lra. Qed.
Lemma e8 : RtoC 8 = 2 * 2 * 2. Proof. rewrite <- !RtoC_mult. f_equal; lra. Qed.
Lemma e9 : RtoC 9 = 3 * 3. Proof. rewrite <- !RtoC_mult. f_equal; lra. Qed.
Lemma e12 : RtoC 12 = 2 * 2 * 3. Proof. rewrite <- !RtoC_mult. f_equal; lra. Qed.
Lemma e18 : RtoC 18 = 2 * 3 * 3. Proof. rewrite <- !RtoC_mult. f_equal; lra. Qed.
Lemma e24 : RtoC 24 = 2 * 2 * 2 * 3. Proof. rewrite <- !RtoC_mult. f_equal; lra. Qed.
Lemma e36 : RtoC 36 = 2 * 2 * 3 * 3. Proof. rewrite <- !RtoC_mult. f_equal; lra. Qed.
Lemma ev : RtoC v = phi / (1 - phi)%R. Proof. unfold v. apply RtoC_div. lra. Qed.
Lemma er : RtoC (6 * phi / PI) = 2 * 3 * phi / PI. Proof. pose proof PI_RGT_0. rewrite RtoC_div, RtoC_mult, e6 by lra. ring. Qed.
Ltac consts := rewrite ?e4, ?e6, ?e8, ?e9, ?e12, ?e18, ?e24, ?e36, ?ev, ?er.
Ltac fld := pose proof nz2; pose proof nzD; pose proof nzpi; pose proof s_nz; consts; field; repeat split; nz.
Lemma near_fa : near (fun u => sp_fa q (ku u)) la.
Proof.
  unfold sp_fa. apply (near_ext (fun u => 1 / (s * s * s) * (1 - s / 2 - sp_f0 q (ku u) - s / 2 * sp_f1 q (ku u)))); [intros u _; now rewrite x_ku|].
  near_go. unfold la. fld.
Qed.
Lemma near_fb : near (fun u => sp_fb q (ku u)) la.
Proof.
  unfold sp_fb. apply (near_ext (fun u => 1 / (s * s * s) * (1 - s / 2 * sp_t2 (ku u) - sp_f1 q (ku u) - s / 2 * sp_f2 q (ku u)))); [intros u _; now rewrite x_ku|].
  near_go. unfold la. fld.
Qed.
Lemma near_fc : near (fun u => sp_fc q (ku u)) lc.
Proof.
  unfold sp_fc. apply (near_ext (fun u => 1 / (s * s) * (1 - s - sp_f0 q (ku u)))); [intros u _; now rewrite x_ku|].
  near_go. unfold lc. fld.
Qed.
Lemma near_fd : near (fun u => sp_fd q (ku u)) lc.
Proof.
  unfold sp_fd. apply (near_ext (fun u => 1 / (s * s) * (1 - s * sp_t2 (ku u) - sp_f1 q (ku u)))); [intros u _; now rewrite x_ku|].
  near_go. unfold lc. fld.
Qed.
Lemma near_Ia1 : near (fun u => Ialpha1 q phi [ku u]) li.
Proof.
  unfold Ialpha1. cbn [map Csum fold_right]. 
  apply (near_ext (fun u => 24 / (s * s * s) * (1 * poly_rho phi [ku u] * (- (1 / 2) * (1 - sp_f0 q (ku u)) + s / 4 * (1 + sp_f1 q (ku u))) + 0))); [intros u _; rewrite x_ku; reflexivity|].
  near_go. unfold li, la. fld.
Qed.
Lemma near_Ia2 : near (fun u => Ialpha2 q phi [ku u]) li.
Proof.
  unfold Ialpha2. cbn [map Csum fold_right]. 
  apply (near_ext (fun u => 24 / (s * s * s) * (1 * poly_rho phi [ku u] * (- (1 / 2) * (1 - sp_f1 q (ku u)) + s * (1 * 1) / 4 * (sp_t2 (ku u) + sp_f2 q (ku u))) + 0))); [intros u _; reflexivity|].
  near_go. unfold li, la. fld.
Qed.
Lemma near_Iw1 : near (fun u => Iw1 q phi [ku u]) (12 * v / (s * s * s) * (1 + s / 2) * li).
Proof.
  unfold Iw1. pose proof near_Ia1. pose proof near_Ia2. pose proof nzD. near_go. fld.
Qed.
Lemma near_Iw2 : near (fun u => Iw2 q phi [ku u]) ((6 * v / (s * s) * (1 + 6 * v / s) + 18 * v * v / (s * s)) * li).
Proof.
  unfold Iw2. pose proof near_Ia1. pose proof near_Ia2. pose proof nzD. near_go. fld.
Qed.
Lemma near_F11 : near (fun u => F11 q phi [ku u]) (12 * v * la).
Proof.
  unfold F11. cbn [map Csum fold_right]. cbn [sp_c sp_d ku]. pose proof near_fa. pose proof nzD. near_go. fld.
Qed.
Lemma near_F21 : near (fun u => F21 q phi [ku u]) (12 * v * la).
Proof.
  unfold F21. cbn [map Csum fold_right]. cbn [sp_c sp_d ku]. pose proof near_fb. pose proof nzD. near_go. fld.
Qed.
Lemma near_F12 : near (fun u => F12 q phi [ku u]) (36 * v * v * la + 6 * v * lc).
Proof.
  unfold F12. cbn [map Csum fold_right]. cbn [sp_c sp_d ku]. pose proof near_fa. pose proof near_fc. pose proof nzD. near_go. fld.
Qed.
Lemma near_F22 : near (fun u => F22 q phi [ku u]) (36 * v * v * la + 6 * v * lc).
Proof.
  unfold F22. cbn [map Csum fold_right]. cbn [sp_c sp_d ku]. pose proof near_fb. pose proof near_fd. pose proof nzD. near_go. fld.
Qed.
Lemma near_det : near (fun u => FFdet q phi [ku u]) ld.
Proof.
  unfold FFdet, FF11, FF12, FF21, FF22. pose proof near_F11. pose proof near_F12. pose proof near_F21. pose proof near_F22.
  nears. unfold ld. ring.
Qed.
Lemma near_I0 : near (fun u => I0 q phi [ku u]) (- (9 / 2) * (two_s q * two_s q * two_s q * two_s q * two_s q * two_s q) * ((6 * phi / PI)%R * (6 * phi / PI)%R * lB)).
Proof.
  unfold I0. cbn [map Csum fold_right].
  apply (near_ext (fun u => - (9 / 2) * (two_s q * two_s q * two_s q * two_s q * two_s q * two_s q) * (1 * (poly_rho phi [ku u] * poly_rho phi [ku u]) *
     (1 - 1 / 2 * (sp_f0i q (ku u) + sp_f0 q (ku u)) + s / 2 * (sp_f1i q (ku u) - sp_f1 q (ku u)) - (s * s * (1 * 1)) / 8 * (sp_f2i q (ku u) + sp_f2 q (ku u) + 2 * sp_t2 (ku u))) + 0))).
  { intros u _. rewrite x_ku. reflexivity. }
  near_go. unfold lB. fld.
Qed.

(** The determinant is the Wertheim factor of the Percus-Yevick solution. *)
Definition dd : R := (1 - phi) ^ 2 * q ^ 3.
Lemma dd_pos : (0 < dd)%R.
Proof. unfold dd. apply Rmult_lt_0_compat; apply pow_lt; lra. Qed.
Lemma ld_eq : ld = (- Wi q phi / dd, Wr q phi / dd)%R.
Proof.
  pose proof s_nz as Hs. pose proof dd_pos as Hdd.
  assert (X : ld * (s * s * s) = s * s * s - 12 * v * (1 - s / 2 - E - s / 2 * E) - (36 * v * v * (1 - s / 2 - E - s / 2 * E) + 6 * v * s * (1 - s - E))).
  { unfold ld, la, lc. pose proof nz2. field. split; assumption. }
  assert (H3 : s * s * s <> RtoC 0) by (apply Cmult_neq_0; [apply Cmult_neq_0|]; exact Hs).
  replace ld with (ld * (s * s * s) / (s * s * s)) by (field; exact Hs). rewrite X.
  transitivity ((- Wi q phi / dd, Wr q phi / dd)%R * (s * s * s) / (s * s * s)); [|field; exact Hs].
  apply (f_equal (fun z => z / (s * s * s))). unfold Cdiv. replace (/ 2) with (RtoC (/ 2)) by (rewrite RtoC_inv; [reflexivity|lra]).
  unfold eC, Cminus, Cmult, Cplus, Copp, RtoC, v, Wr, Wi, dd. cbn [fst snd].
  apply (f_equal2 pair); field; split; lra.
Qed.
Lemma ld_nz : ld <> RtoC 0.
Proof.
  rewrite ld_eq. intros X. pose proof (f_equal fst X) as X1. pose proof (f_equal snd X) as X2. cbn [fst snd RtoC] in X1, X2.
  pose proof (W_nonzero q phi Hq Hphi) as W. pose proof dd_pos as D.
  assert (Wi q phi = 0)%R. { apply (Rmult_eq_reg_r (- / dd)); [|apply Ropp_neq_0_compat, Rinv_neq_0_compat; lra]. unfold Rdiv in X1. lra. }
  assert (Wr q phi = 0)%R. { apply (Rmult_eq_reg_r (/ dd)); [|apply Rinv_neq_0_compat; lra]. unfold Rdiv in X2. lra. }
  nra.
Qed.
Lemma ld_mod : (fst ld ^ 2 + snd ld ^ 2 = 1 - py_c q phi)%R.
Proof.
  rewrite (py_factor q phi) by lra. rewrite ld_eq. cbn [fst snd]. unfold dd. field. split; lra.
Qed.
Definition lW : C := 12 * v / (s * s * s) * (1 + s / 2) + (6 * v / (s * s) * (1 + 6 * v / s) + 18 * v * v / (s * s)).
Lemma lW_eq : lW = (- (12 * v + 18 * v ^ 2) / q ^ 2, (12 * v + 36 * v ^ 2) / q ^ 3)%R.
Proof.
  pose proof s_nz as Hs. pose proof nz2.
  assert (X : lW * (s * s * s) = 12 * v * (1 + s / 2) + (6 * v * (s + 6 * v) + 18 * v * v * s)).
  { unfold lW. field. split; assumption. }
  replace lW with (lW * (s * s * s) / (s * s * s)) by (field; exact Hs). rewrite X.
  transitivity ((- (12 * v + 18 * v ^ 2) / q ^ 2, (12 * v + 36 * v ^ 2) / q ^ 3)%R * (s * s * s) / (s * s * s)); [|field; exact Hs].
  apply (f_equal (fun z => z / (s * s * s))). unfold Cdiv. replace (/ 2) with (RtoC (/ 2)) by (rewrite RtoC_inv; [reflexivity|lra]).
  unfold Cmult, Cplus, RtoC. cbn [fst snd]. apply (f_equal2 pair); field; lra.
Qed.
Lemma PY_limit : (1 - 2 * fst (E * lW / ld)%C = 1 / (1 - py_c q phi))%R.
Proof.
  rewrite <- ld_mod. pose proof ld_nz as N.
  assert (M : (fst ld ^ 2 + snd ld ^ 2 <> 0)%R). { intros Z. apply N. rewrite (surjective_pairing ld). unfold RtoC. apply (f_equal2 pair); nra. }
  assert (K : (2 * (fst (E * lW)%C * fst ld + snd (E * lW)%C * snd ld) = fst ld ^ 2 + snd ld ^ 2 - 1)%R).
  { rewrite lW_eq, ld_eq. unfold eC, Cmult. cbn [fst snd]. unfold v, Wr, Wi, dd.
    pose proof (sin2_cos2 q) as T. unfold Rsqr in T.
    set (sn := sin q) in *. set (c := cos q) in *. clearbody sn c.
    assert (C2 : (sn * sn = 1 - c * c)%R) by lra.
    field_simplify_eq; [|split; lra].
    replace (sn ^ 2)%R with (1 - c * c)%R by (rewrite <- C2; ring). ring. }
  unfold Cdiv. unfold Cmult at 1. unfold Cinv. cbn [fst snd].
  apply (Rmult_eq_reg_r (fst ld ^ 2 + snd ld ^ 2)); [|exact M].
  replace (1 / (fst ld ^ 2 + snd ld ^ 2) * (fst ld ^ 2 + snd ld ^ 2))%R with 1%R by (field; exact M).
  match goal with |- (?x = 1)%R => replace x with (fst ld ^ 2 + snd ld ^ 2 - 2 * (fst (E * lW)%C * fst ld + snd (E * lW)%C * snd ld))%R by (field; exact M) end.
  rewrite K. ring.
Qed.

(** ** Away from the zeros of the form factor *)
Definition gq : R := (sin (q / 2) - q / 2 * cos (q / 2))%R.
Lemma half : (sin q = 2 * sin (q / 2) * cos (q / 2) /\ cos q = 1 - 2 * sin (q / 2) * sin (q / 2))%R.
Proof.
  rewrite <- sin_2a. split; [f_equal; field|]. transitivity (cos (2 * (q / 2))); [f_equal; field|]. apply cos_2a_sin.
Qed.
Lemma lB_eq : lB = RtoC (2 * gq ^ 2).
Proof.
  unfold lB. unfold Cdiv. replace (/ 2) with (RtoC (/ 2)) by (rewrite RtoC_inv; [reflexivity|lra]).
  replace (/ 8) with (RtoC (/ 8)) by (rewrite RtoC_inv; [reflexivity|lra]).
  unfold eC, Cconj, Cminus, Cmult, Cplus, Copp, RtoC. cbn [fst snd]. destruct half as [-> ->]. unfold gq.
  pose proof (sin2_cos2 (q / 2)) as T. unfold Rsqr in T. set (sn := sin (q / 2)) in *. set (c := cos (q / 2)) in *. clearbody sn c.
  apply (f_equal2 pair); [|field].
  assert (C2 : (c * c = 1 - sn * sn)%R) by lra.
  apply Rminus_diag_uniq. transitivity ((q * q / 2) * (1 - sn * sn - c * c))%R; [field|rewrite C2; ring].
Qed.
Lemma EE : E * Cconj E = RtoC 1.
Proof.
  unfold eC, Cconj, Cmult, RtoC. cbn [fst snd]. pose proof (sin2_cos2 q) as T. unfold Rsqr in T. apply (f_equal2 pair); [lra|ring].
Qed.
Lemma lB_la : lB * E = - ((s * s * s * la) * (s * s * s * la) / 2).
Proof.
  pose proof s_nz as Hs. pose proof nz2.
  transitivity (E - 1 / 2 * (E * Cconj E + E * E) + s / 2 * (E * Cconj E - E * E) - s * s / 8 * (E * Cconj E + E * E + 2 * E)).
  { unfold lB. ring. }
  rewrite EE. unfold la. consts. assert (E2 : RtoC 2 = 1 + 1) by (rewrite <- RtoC_plus; f_equal; lra). rewrite E2 in *.
  field. split; [|split; [exact Hs|]]; intros X; apply (f_equal fst) in X; cbn [fst RtoC] in X; lra.
Qed.
Lemma la_zero : gq = 0%R <-> la = RtoC 0.
Proof.
  pose proof s_nz as Hs. assert (H3 : s * s * s <> RtoC 0) by (apply Cmult_neq_0; [apply Cmult_neq_0|]; exact Hs).
  split; intros Z.
  - assert (X : (s * s * s * la) * (s * s * s * la) = RtoC 0).
    { pose proof lB_la as Y. rewrite lB_eq, Z in Y. pose proof nz2.
      transitivity (- (2 * (- ((s * s * s * la) * (s * s * s * la) / 2)))); [field; assumption|]. rewrite <- Y.
      replace (RtoC (2 * 0 ^ 2)) with (RtoC 0) by (f_equal; ring). ring. }
    assert (Y : s * s * s * la = RtoC 0).
    { destruct (Ceq_dec (s * s * s * la) (RtoC 0)) as [e|n]; [exact e|]. exfalso. exact (Cmult_neq_0 _ _ n n X). }
    destruct (Ceq_dec la (RtoC 0)) as [e|n]; [exact e|]. exfalso. exact (Cmult_neq_0 _ _ H3 n Y).
  - pose proof lB_la as Y. rewrite Z, lB_eq in Y.
    replace (- (s * s * s * RtoC 0 * (s * s * s * RtoC 0) / 2)) with (RtoC 0) in Y by (pose proof nz2; field; assumption).
    assert (B : RtoC (2 * gq ^ 2) = RtoC 0).
    { transitivity (RtoC (2 * gq ^ 2) * (E * Cconj E)); [rewrite EE; ring|]. transitivity (RtoC (2 * gq ^ 2) * E * Cconj E); [ring|]. rewrite Y. ring. }
    apply RtoC_inj in B. nra.
Qed.

Definition h_of (u : R) : C := Iw1 q phi [ku u] * G11 q phi [ku u] * Ialpha1 q phi [ku u] / I0 q phi [ku u] + Iw1 q phi [ku u] * G12 q phi [ku u] * Ialpha2 q phi [ku u] / I0 q phi [ku u]
       + Iw2 q phi [ku u] * G21 q phi [ku u] * Ialpha1 q phi [ku u] / I0 q phi [ku u] + Iw2 q phi [ku u] * G22 q phi [ku u] * Ialpha2 q phi [ku u] / I0 q phi [ku u].
Lemma two_s_nz : two_s q <> RtoC 0.
Proof. unfold two_s, Cdiv. apply Cmult_neq_0; [exact nz2|]. intros X. pose proof (Cinv_r s s_nz) as Y. rewrite X, Cmult_0_r in Y. apply RtoC_inj in Y. lra. Qed.
Lemma lI0_nz : lB <> RtoC 0 -> - (9 / 2) * (two_s q * two_s q * two_s q * two_s q * two_s q * two_s q) * ((6 * phi / PI)%R * (6 * phi / PI)%R * lB) <> RtoC 0.
Proof.
  intros HB. pose proof PI_RGT_0 as HP. assert (Hr : (0 < 6 * phi / PI)%R) by (apply Rdiv_lt_0_compat; lra). pose proof two_s_nz as T.
  apply Cmult_neq_0; [|apply Cmult_neq_0; [apply Cmult_neq_0; nz|exact HB]].
  apply Cmult_neq_0; [|do 5 (apply Cmult_neq_0; [|exact T]); exact T].
  unfold Cdiv. rewrite <- RtoC_inv, <- RtoC_mult, <- RtoC_opp by lra. nz.
Qed.
Lemma near_h : gq <> 0%R -> near h_of (E * lW / ld).
Proof.
  intros Hg. assert (HB : lB <> RtoC 0). { rewrite lB_eq. apply RtoC_neq. pose proof (pow2_ge_0 gq). assert (gq ^ 2 <> 0)%R by (apply pow_nonzero; exact Hg). lra. }
  pose proof near_Iw1. pose proof near_Iw2. pose proof near_Ia1. pose proof near_Ia2. pose proof near_F11. pose proof near_F12. pose proof near_F21. pose proof near_F22.
  pose proof near_det. pose proof near_I0. pose proof ld_nz as Hld. pose proof (lI0_nz HB) as HI.
  unfold h_of, G11, G12, G21, G22, FF11, FF12, FF21, FF22. nears.
  set (J := - (9 / 2) * (two_s q * two_s q * two_s q * two_s q * two_s q * two_s q) * ((6 * phi / PI)%R * (6 * phi / PI)%R * lB)) in *.
  assert (Q : li * li = J * E).
  { unfold J, li, two_s. transitivity (- (9 / 2) * (2 / s * (2 / s) * (2 / s) * (2 / s) * (2 / s) * (2 / s)) * ((6 * phi / PI)%R * (6 * phi / PI)%R) * (lB * E)); [|ring].
    rewrite lB_la. generalize la. intros a. fld. }
  transitivity (lW * (li * li) / (J * ld)).
  - unfold lW, ld. set (a := la) in *. set (c := lc) in *.
    pose proof s_nz. pose proof nz2. fold a c in Hld. unfold ld in Hld. fold a c in Hld. field. repeat split; assumption.
  - rewrite Q. field. split; assumption.
Qed.

(** ** At the zeros of the form factor *)
Definition near2 (f : R -> C) (c e : C) : Prop := O (fun u => f u - (c + e * RtoC (/ u)%R)) (-2).
Lemma O_iu : O (fun u => RtoC (/ u)%R) (-1).
Proof. exact O_inv_u. Qed.
Lemma O_iu2 : O (fun u => RtoC (/ u)%R * RtoC (/ u)%R) (-2).
Proof. replace (-2)%R with (-1 + -1)%R by ring. apply O_mult; exact O_iu. Qed.
Lemma near2_ext f g c e : (forall u, 1 < u -> f u = g u) -> near2 f c e -> near2 g c e.
Proof. intros X. apply O_ext. intros u Hu. now rewrite X. Qed.
Lemma near2_eq f c e c' e' : near2 f c e -> c = c' -> e = e' -> near2 f c' e'.
Proof. now intros H <- <-. Qed.
Lemma near2_const c : near2 (fun _ => c) c (RtoC 0).
Proof. exists 0, 1. split; [lra|]. split; [lra|]. intros u Hu. replace (c - (c + RtoC 0 * RtoC (/ u)%R)) with (RtoC 0) by ring. rewrite Cmod_0. lra. Qed.
Lemma near2_iu : near2 (fun u => RtoC (/ u)%R) (RtoC 0) (RtoC 1).
Proof. exists 0, 1. split; [lra|]. split; [lra|]. intros u Hu. replace (RtoC (/ u)%R - (RtoC 0 + RtoC 1 * RtoC (/ u)%R)) with (RtoC 0) by ring. rewrite Cmod_0. lra. Qed.
Lemma near2_plus f g c e c' e' : near2 f c e -> near2 g c' e' -> near2 (fun u => f u + g u) (c + c') (e + e').
Proof. intros H1 H2. eapply O_ext; [|exact (O_plus _ _ _ H1 H2)]. intros u _. cbv beta. ring. Qed.
Lemma near2_opp f c e : near2 f c e -> near2 (fun u => - f u) (- c) (- e).
Proof. intros H1. eapply O_ext; [|exact (O_opp _ _ H1)]. intros u _. cbv beta. ring. Qed.
Lemma near2_minus f g c e c' e' : near2 f c e -> near2 g c' e' -> near2 (fun u => f u - g u) (c - c') (e - e').
Proof. intros H1 H2. eapply O_ext; [|exact (O_minus _ _ _ H1 H2)]. intros u _. cbv beta. ring. Qed.
Lemma near2_O f c e : near2 f c e -> O f 0.
Proof.
  intros H. apply (O_ext (fun u => (f u - (c + e * RtoC (/ u)%R)) + (c + e * RtoC (/ u)%R))); [intros u _; cbv beta; ring|].
  pose proof O_iu. unfold near2 in H. apply O_plus; [eapply O_weaken; [|exact H]; lra|]. apply O_plus; [apply O_const|]. apply O_scal. eapply O_weaken; [|eassumption]; lra.
Qed.
Lemma near2_mult f g c e c' e' : near2 f c e -> near2 g c' e' -> near2 (fun u => f u * g u) (c * c') (c * e' + e * c').
Proof.
  intros H1 H2. pose proof (near2_O _ _ _ H2) as B. pose proof O_iu2 as I2. pose proof O_iu as I1.
  apply (O_ext (fun u => (f u - (c + e * RtoC (/ u)%R)) * g u + ((c + e * RtoC (/ u)%R) * (g u - (c' + e' * RtoC (/ u)%R)) + (e * e') * (RtoC (/ u)%R * RtoC (/ u)%R)))); [intros u _; cbv beta; ring|].
  apply O_plus; [replace (-2)%R with (-2 + 0)%R by ring; now apply O_mult|]. apply O_plus; [|now apply O_scal].
  replace (-2)%R with (0 + -2)%R by ring. apply O_mult; [|exact H2].
  apply O_plus; [apply O_const|]. apply O_scal. eapply O_weaken; [|exact I1]; lra.
Qed.
Lemma near2_conj f c e : near2 f c e -> near2 (fun u => Cconj (f u)) (Cconj c) (Cconj e).
Proof.
  intros (K & Q & HK & HQ & H). exists K, Q. split; [exact HK|]. split; [exact HQ|]. intros u Hu. specialize (H u Hu).
  replace (Cconj (f u) - (Cconj c + Cconj e * RtoC (/ u)%R)) with (Cconj (f u - (c + e * RtoC (/ u)%R)))
    by (unfold Cminus, Cconj, Cplus, Copp, Cmult, RtoC; cbn [fst snd]; apply (f_equal2 pair); ring).
  replace (Cmod (Cconj (f u - (c + e * RtoC (/ u)%R)))) with (Cmod (f u - (c + e * RtoC (/ u)%R))); [exact H|].
  unfold Cmod, Cconj. cbn [fst snd]. f_equal. ring.
Qed.
Lemma near2_bound (f : R -> C) (c e : C) K : (0 <= K)%R -> (forall u, (1 < u)%R -> (Cmod (f u - (c + e * RtoC (/ u)%R))%C <= K * (/ u * / u))%R) -> near2 f c e.
Proof.
  intros HK H. exists K, 1%R. split; [exact HK|]. split; [lra|]. intros u Hu. replace (-2)%R with (- (1) + - (1))%R by ring.
  rewrite Rpower_plus, Rpower_Ropp, Rpower_1 by lra. now apply H.
Qed.
Lemma near2_trans f g c e : O (fun u => f u - g u) (-2) -> near2 g c e -> near2 f c e.
Proof. intros H1 H2. eapply O_ext; [|exact (O_plus _ _ _ H1 H2)]. intros u _. cbv beta. ring. Qed.
Lemma O_bound2 (f : R -> C) K : (0 <= K)%R -> (forall u, (1 < u)%R -> (Cmod (f u) <= K * (/ u * / u))%R) -> O f (-2).
Proof.
  intros HK H. exists K, 1%R. split; [exact HK|]. split; [lra|]. intros u Hu. replace (-2)%R with (- (1) + - (1))%R by ring.
  rewrite Rpower_plus, Rpower_Ropp, Rpower_1 by lra. now apply H.
Qed.

Ltac near2_step :=
  match goal with
  | H : near2 ?f _ _ |- near2 ?f _ _ => exact H
  | |- near2 (fun _ => ?c) _ _ => apply (near2_const c)
  | |- near2 (fun q => Cplus _ _) _ _ => eapply near2_plus
  | |- near2 (fun q => Cminus _ _) _ _ => eapply near2_minus
  | |- near2 (fun q => Copp _) _ _ => eapply near2_opp
  | |- near2 (fun q => Cmult _ _) _ _ => eapply near2_mult
  end.
Lemma ku_p4 u : (1 < u)%R -> ((/ sqrt u) ^ 4 = / u * / u)%R.
Proof. intros H. replace ((/ sqrt u) ^ 4)%R with ((/ sqrt u) ^ 2 * (/ sqrt u) ^ 2)%R by ring. now rewrite ku_w. Qed.
Lemma n2_f0 : near2 (fun u => sp_f0 q (ku u)) E (E * RtoC (- (q ^ 2 / 2))).
Proof.
  apply (near2_bound _ _ _ ((1 + q / 2) * q ^ 3 / 3)).
  { apply Rmult_le_pos; [|lra]. apply Rmult_le_pos; [lra|]. apply pow_le. lra. }
  intros u Hu. pose proof (f0_e2 (ku u) (ku_pos u Hu) Rlt_0_1 q Hq) as B. cbn [sp_d sp_pdi ku] in B. rewrite Rmult_1_r, ku_w, ku_p4 in B by exact Hu.
  replace (E + E * RtoC (- (q ^ 2 / 2)) * RtoC (/ u)) with (E * RtoC (1 - 1 ^ 2 * / u * q ^ 2 / 2)).
  - eapply Rle_trans; [exact B|]. right. field. lra.
  - unfold eC, Cmult, Cplus, RtoC. cbn [fst snd]. apply (f_equal2 pair); field; lra.
Qed.
Lemma n2_f1 : near2 (fun u => sp_f1 q (ku u)) E (E * (- (q ^ 2 / 2), - q)%R).
Proof.
  apply (near2_trans _ (fun u => sp_f0 q (ku u) * (1 - s * RtoC (/ u)%R))).
  - apply (O_bound2 _ (q ^ 2)); [apply pow2_ge_0|]. intros u Hu. destruct (orders_related (ku u) (ku_pos u Hu) q) as [X _]. cbn [sp_d sp_pdi ku] in X.
    rewrite Rmult_1_r, ku_w in X by exact Hu. rewrite <- X.
    replace (sp_f1 q (ku u) - (1, q * / u)%R * sp_f1 q (ku u) * (1 - s * RtoC (/ u))) with (Copp (RtoC (q ^ 2 * (/ u * / u))) * sp_f1 q (ku u)).
    + rewrite Cmod_mult, Cmod_opp, Cmod_R. pose proof (f1_le (ku u) (ku_pos u Hu) q). pose proof (Cmod_ge_0 (sp_f1 q (ku u))). pose proof (iu u Hu).
      assert (0 <= q ^ 2 * (/ u * / u))%R by (apply Rmult_le_pos; [apply pow2_ge_0|nra]). rewrite Rabs_pos_eq by assumption. nra.
    + destruct (sp_f1 q (ku u)) as [a b]. unfold Cminus, Cmult, Cplus, Copp, RtoC. cbn [fst snd]. apply (f_equal2 pair); ring.
  - pose proof n2_f0. pose proof near2_iu. eapply near2_eq; [repeat near2_step|ring|].
    unfold eC, Cmult, Cminus, Cplus, Copp, RtoC. cbn [fst snd]. apply (f_equal2 pair); field.
Qed.
Lemma n2_f2 : near2 (fun u => sp_f2 q (ku u)) E (E * (1 - q ^ 2 / 2, - (2 * q))%R).
Proof.
  apply (near2_trans _ (fun u => (1 + RtoC (/ u)%R) * (sp_f1 q (ku u) * (1 - s * RtoC (/ u)%R)))).
  - apply (O_bound2 _ (2 * q ^ 2)); [pose proof (pow2_ge_0 q); lra|]. intros u Hu. destruct (orders_related (ku u) (ku_pos u Hu) q) as [_ X]. cbn [sp_d sp_pdi ku] in X.
    rewrite Rmult_1_r, ku_w in X by exact Hu.
    replace ((1 + RtoC (/ u)) * (sp_f1 q (ku u) * (1 - s * RtoC (/ u)))) with ((RtoC (1 + / u) * sp_f1 q (ku u)) * (1 - s * RtoC (/ u))) by (rewrite RtoC_plus; ring).
    rewrite <- X.
    replace (sp_f2 q (ku u) - (1, q * / u)%R * sp_f2 q (ku u) * (1 - s * RtoC (/ u))) with (Copp (RtoC (q ^ 2 * (/ u * / u))) * sp_f2 q (ku u)).
    + rewrite Cmod_mult, Cmod_opp, Cmod_R. pose proof (f2_le (ku u) (ku_pos u Hu) q) as L. cbn [sp_pdi ku] in L. rewrite ku_w in L by exact Hu. pose proof (Cmod_ge_0 (sp_f2 q (ku u))). pose proof (iu u Hu).
      assert (0 <= q ^ 2 * (/ u * / u))%R by (apply Rmult_le_pos; [apply pow2_ge_0|nra]). rewrite Rabs_pos_eq by assumption. nra.
    + destruct (sp_f2 q (ku u)) as [a b]. unfold Cminus, Cmult, Cplus, Copp, RtoC. cbn [fst snd]. apply (f_equal2 pair); ring.
  - pose proof n2_f1. pose proof near2_iu. eapply near2_eq; [repeat near2_step|ring|].
    unfold eC, Cmult, Cminus, Cplus, Copp, RtoC. cbn [fst snd]. apply (f_equal2 pair); field.
Qed.
Definition br (u : R) : C := 1 - RtoC (1 / 2) * (sp_f0i q (ku u) + sp_f0 q (ku u)) + s * RtoC (1 / 2) * (sp_f1i q (ku u) - sp_f1 q (ku u)) - s * s * RtoC (1 / 8) * (sp_f2i q (ku u) + sp_f2 q (ku u) + 2 * (1 + RtoC (/ u)%R)).
Lemma near2_br : gq = 0%R -> near2 br (RtoC 0) (RtoC (q ^ 4 / 8 * sin (q / 2) ^ 2)).
Proof.
  intros Hg. pose proof n2_f0. pose proof n2_f1. pose proof n2_f2. pose proof near2_iu.
  assert (near2 (fun u => sp_f0i q (ku u)) (Cconj E) (Cconj (E * RtoC (- (q ^ 2 / 2))))).
  { eapply near2_ext; [|exact (near2_conj _ _ _ n2_f0)]. intros u Hu. cbv beta. symmetry. apply (fi_conj u Hu). }
  assert (near2 (fun u => sp_f1i q (ku u)) (Cconj E) (Cconj (E * (- (q ^ 2 / 2), - q)%R))).
  { eapply near2_ext; [|exact (near2_conj _ _ _ n2_f1)]. intros u Hu. cbv beta. symmetry. apply (fi_conj u Hu). }
  assert (near2 (fun u => sp_f2i q (ku u)) (Cconj E) (Cconj (E * (1 - q ^ 2 / 2, - (2 * q))%R))).
  { eapply near2_ext; [|exact (near2_conj _ _ _ n2_f2)]. intros u Hu. cbv beta. symmetry. apply (fi_conj u Hu). }
  unfold br. destruct half as [Hs Hc]. pose proof (sin2_cos2 (q / 2)) as T. unfold Rsqr in T. unfold gq in Hg.
  set (sn := sin (q / 2)) in *. set (c := cos (q / 2)) in *. assert (S1 : sn = (q / 2 * c)%R) by lra.
  assert (C2 : (c * c = 1 - sn * sn)%R) by lra.
  eapply near2_eq; [repeat near2_step| |].
  - unfold eC, Cconj, Cmult, Cminus, Cplus, Copp, RtoC. cbn [fst snd]. rewrite Hs, Hc. apply (f_equal2 pair); [|field].
    apply Rminus_diag_uniq. transitivity (2 * (sn - q / 2 * c) ^ 2 + (q * q / 2) * (1 - sn * sn - c * c))%R; [field|rewrite C2, S1; ring].
  - unfold eC, Cconj, Cmult, Cminus, Cplus, Copp, RtoC. cbn [fst snd]. rewrite Hs, Hc. apply (f_equal2 pair); [|field].
    apply Rminus_diag_uniq. transitivity (q ^ 2 / 2 * (sn ^ 2 - (q / 2 * c) ^ 2) - q ^ 4 / 8 * (1 - sn * sn - c * c))%R; [field|rewrite C2, <- S1; ring].
Qed.
Lemma sin_half_nz : gq = 0%R -> sin (q / 2) <> 0%R.
Proof.
  unfold gq. intros Hg Z. pose proof (sin2_cos2 (q / 2)) as T. unfold Rsqr in T. rewrite Z in *.
  assert (cos (q / 2) = 0)%R by nra. nra.
Qed.
Lemma al_I0_zero : gq = 0%R -> atleast (fun u => I0 q phi [ku u]) (-1).
Proof.
  intros Hg. pose proof (sin_half_nz Hg) as Hs. pose proof PI_RGT_0 as HP. assert (Hr : (0 < 6 * phi / PI)%R) by (apply Rdiv_lt_0_compat; lra).
  assert (Hb : (0 < q ^ 4 / 8 * sin (q / 2) ^ 2)%R).
  { apply Rmult_lt_0_compat; [apply Rdiv_lt_0_compat; [apply pow_lt; lra|lra]|]. pose proof (pow2_ge_0 (sin (q / 2))). pose proof (pow_nonzero _ 2 Hs). lra. }
  assert (A : atleast br (-1)).
  { eapply atleast_ext; [|apply (atleast_plus (fun u => RtoC (q ^ 4 / 8 * sin (q / 2) ^ 2) * RtoC (/ u)%R) (fun u => br u - (RtoC 0 + RtoC (q ^ 4 / 8 * sin (q / 2) ^ 2) * RtoC (/ u)%R)) (-1) (-2))].
    - intros u _. cbv beta. ring.
    - lra.
    - replace (-1)%R with (0 + -1)%R by ring. apply (atleast_mult (fun _ => RtoC (q ^ 4 / 8 * sin (q / 2) ^ 2))); [apply atleast_const; nz|exact al_inv_u].
    - exact (near2_br Hg). }
  assert (Arho : atleast (fun u => RtoC (poly_rho phi [ku u])) 0) by (eapply near_al; [exact n_rho|nz]).
  pose proof two_s_nz as T.
  assert (N : - (9 / 2) * (two_s q * two_s q * two_s q * two_s q * two_s q * two_s q) <> RtoC 0).
  { apply Cmult_neq_0; [|do 5 (apply Cmult_neq_0; [|exact T]); exact T]. unfold Cdiv. rewrite <- RtoC_inv, <- RtoC_mult, <- RtoC_opp by lra. nz. }
  replace (-1)%R with (0 + (0 + 0 + -1))%R by ring.
  eapply atleast_ext; [|apply (atleast_mult (fun _ => - (9 / 2) * (two_s q * two_s q * two_s q * two_s q * two_s q * two_s q)) (fun u => (RtoC (poly_rho phi [ku u]) * RtoC (poly_rho phi [ku u])) * br u));
    [now apply atleast_const|apply (atleast_mult (fun u => RtoC (poly_rho phi [ku u]) * RtoC (poly_rho phi [ku u])) br); [apply (atleast_mult (fun u => RtoC (poly_rho phi [ku u])) (fun u => RtoC (poly_rho phi [ku u]))); exact Arho|exact A]]].
  intros u Hu. cbv beta. unfold I0. apply (f_equal (Cmult _)). cbn [map Csum fold_right]. rewrite x_ku. cbn [sp_c sp_d ku].
  unfold br, sp_t2. rewrite ku_D by exact Hu. rewrite RtoC_plus, !RtoC_div by lra.
  generalize (sp_f0i q (ku u)) (sp_f0 q (ku u)) (sp_f1i q (ku u)) (sp_f1 q (ku u)) (sp_f2i q (ku u)) (sp_f2 q (ku u)) (RtoC (poly_rho phi [ku u])) (RtoC (/ u)). intros.
  pose proof nz2. assert (RtoC 8 <> RtoC 0) by nz. field. split; assumption.
Qed.
Lemma O_h_zero : gq = 0%R -> O h_of (-1).
Proof.
  intros Hg. assert (L : li = RtoC 0) by (unfold li; rewrite (proj1 la_zero Hg); ring).
  assert (O (fun u => Ialpha1 q phi [ku u]) (-1)) by (apply near_0; eapply near_eq; [exact near_Ia1|exact L]).
  assert (O (fun u => Ialpha2 q phi [ku u]) (-1)) by (apply near_0; eapply near_eq; [exact near_Ia2|exact L]).
  assert (O (fun u => Iw1 q phi [ku u]) (-1)) by (apply near_0; eapply near_eq; [exact near_Iw1|rewrite L; ring]).
  assert (O (fun u => Iw2 q phi [ku u]) (-1)) by (apply near_0; eapply near_eq; [exact near_Iw2|rewrite L; ring]).
  pose proof (near_O _ _ near_F11). pose proof (near_O _ _ near_F12). pose proof (near_O _ _ near_F21). pose proof (near_O _ _ near_F22).
  pose proof (near_al _ _ near_det ld_nz). pose proof (al_I0_zero Hg).
  unfold h_of, G11, G12, G21, G22, FF11, FF12, FF21, FF22. bigO.
Qed.
(** The Percus-Yevick value at a zero of the form factor. *)
Lemma PY_zero : gq = 0%R -> (1 - py_c q phi = ((1 + 3 * v) ^ 2 + q ^ 2 / 4) / (1 + q ^ 2 / 4))%R.
Proof.
  intros Hg. rewrite <- ld_mod. pose proof (proj1 la_zero Hg) as L. pose proof s_nz as Hs. pose proof nz2 as H2.
  assert (N : 1 + s / 2 <> RtoC 0).
  { intros X. apply (f_equal fst) in X. unfold Cdiv in X. rewrite <- RtoC_inv in X by lra. unfold Cplus, Cmult, RtoC in X. cbn [fst snd] in X. lra. }
  assert (HE : E * (1 + s / 2) = 1 - s / 2).
  { assert (X : s * s * s * la = 1 - s / 2 - E - s / 2 * E) by (unfold la; field; split; assumption). rewrite L in X.
    transitivity (E * (1 + s / 2) + (1 - s / 2 - E - s / 2 * E)); [rewrite <- X; ring|ring]. }
  assert (Hld : ld * (1 + s / 2) = 1 + s / 2 + 3 * v).
  { unfold ld. rewrite L. unfold lc. transitivity (1 + s / 2 - 6 * v * ((1 - s) * (1 + s / 2) - E * (1 + s / 2)) / (s * s)); [field; split; assumption|].
    rewrite HE. assert (TT : s / 2 + s / 2 = s) by (transitivity (s * (2 / 2)); [replace (2 / 2) with (RtoC 1) by (field; assumption); unfold Cdiv; rewrite <- RtoC_inv by lra; unfold Cmult, Cplus, RtoC; cbn [fst snd]; apply (f_equal2 pair); field|field; assumption]).
    assert (YY : (1 - s) * (1 + s / 2) - (1 - s / 2) = - (s * (s / 2))).
    { rewrite <- TT at 1 4. ring. }
    rewrite YY, e6. field. split; assumption. }
  assert (X1 := f_equal fst Hld). assert (X2 := f_equal snd Hld). unfold Cdiv in X1, X2. rewrite <- RtoC_inv in X1, X2 by lra.
  unfold Cplus, Cmult, RtoC in X1, X2. cbn [fst snd] in X1, X2. set (a := fst ld) in *. set (b := snd ld) in *.
  assert (P : (0 < 1 + q ^ 2 / 4)%R) by (pose proof (pow2_ge_0 q); lra).
  apply (Rmult_eq_reg_r (1 + q ^ 2 / 4)); [|lra]. 
  transitivity ((a - b * (q / 2)) ^ 2 + (b + a * (q / 2)) ^ 2)%R; [field|].
  replace (a - b * (q / 2))%R with (1 + 3 * v)%R by lra. replace (b + a * (q / 2))%R with (q / 2)%R by lra. field. lra.
Qed.
End Mono.

(** * Any diameter *)
Lemma clamp_to h S b : 0 <= S -> Rabs (h - S) <= b -> Rabs ((if Rltb h 0 then 0 else h) - S) <= b.
Proof. intros HS B. destruct (Rltb h 0) eqn:E; [apply Rltb_true in E|exact B]. unfold Rabs in *; repeat destruct Rcase_abs; lra. Qed.
Lemma unit_diameter q phi d w : 0 < q -> 0 < phi < 1 -> 0 < d -> factor_poly_w q phi [mkSp 1 d w] = factor_poly_w (q * d) phi [mkSp 1 1 w].
Proof.
  intros Hq Hp Hd. rewrite <- (factor_poly_w_scale d (q * d) phi [mkSp 1 1 w]); try assumption; [|nra| |now left].
  - replace (q * d / d) with q by (field; lra). cbn [map]. unfold scale_sp. cbn [sp_c sp_d sp_pdi]. rewrite Rmult_1_r. reflexivity.
  - repeat (constructor; [split; cbn; lra|]); constructor.
Qed.
Lemma limit_of q phi S c : 0 < q -> 0 < phi < 1 -> near (h_of q phi) c -> S = 1 - 2 * fst c -> 0 <= S ->
  exists K w0, 0 <= K /\ 0 < w0 /\ forall w, 0 < w < w0 -> Rabs (factor_poly_w q phi [mkSp 1 1 w] - S) <= K * w ^ 2.
Proof.
  intros Hq Hp Hn HS Hpos. destruct (O_real _ _ Hn 0) as (K & Q & HK & HQ & _ & B).
  exists (2 * K), (/ sqrt (Q + 1)). assert (HsQ : 0 < sqrt (Q + 1)) by (apply sqrt_lt_R0; lra). split; [lra|].
  split; [now apply Rinv_0_lt_compat|]. intros w [W0 W1].
  set (u := / (w ^ 2)). assert (Hw2 : 0 < w ^ 2) by (apply pow_lt; exact W0).
  assert (Hu : Q + 1 < u).
  { unfold u. rewrite <- (Rinv_inv (Q + 1)). apply Rinv_lt_contravar; [apply Rmult_lt_0_compat; [exact Hw2|apply Rinv_0_lt_compat; lra]|].
    apply Rlt_le_trans with ((/ sqrt (Q + 1)) ^ 2); [|right; rewrite pow_inv, pow2_sqrt by lra; reflexivity].
    apply pow_lt_compat || (simpl; rewrite !Rmult_1_r; apply Rmult_le_0_lt_compat; lra). }
  assert (Ew : / sqrt u = w). { unfold u. rewrite sqrt_inv, sqrt_pow2, Rinv_inv by lra. reflexivity. }
  specialize (B u ltac:(lra)). change (-1) with (- (1)) in B. rewrite Rpower_Ropp, Rpower_1 in B by lra. unfold u in B at 2. rewrite Rinv_inv in B.
  unfold factor_poly_w. cbv zeta. apply clamp_to; [exact Hpos|].
  change (poly_h2 q phi [mkSp 1 1 w]) with (poly_h2 q phi [mkSp 1 1 w]).
  assert (Eh : poly_h2 q phi [mkSp 1 1 w] = fst (h_of q phi u)) by (unfold h_of, poly_h2, ku; rewrite Ew; reflexivity).
  rewrite Eh, HS. replace (1 - 2 * fst (h_of q phi u) - (1 - 2 * fst c)) with (- (2 * fst (Cminus (h_of q phi u) c))).
  - rewrite Rabs_Ropp, Rabs_mult, Rabs_pos_eq by lra. rewrite Rmult_assoc. apply Rmult_le_compat_l; [lra|exact B].
  - unfold Cminus, Cplus, Copp. cbn [fst snd]. ring.
Qed.
Theorem mono_limit q phi d : 0 < q -> 0 < phi < 1 -> 0 < d -> sin (q * d / 2) <> q * d / 2 * cos (q * d / 2) ->
  exists S, factor_py (q * d) phi = Some S /\
  exists K w0, 0 <= K /\ 0 < w0 /\ forall w, 0 < w < w0 -> Rabs (factor_poly_w q phi [mkSp 1 d w] - S) <= K * w ^ 2.
Proof.
  intros Hq Hp Hd Hg. assert (Hy : 0 < q * d) by (apply Rmult_lt_0_compat; assumption).
  destruct (factor_py_value (q * d) phi Hy Hp) as [P E]. exists (1 / (1 - py_c (q * d) phi)). split; [exact E|].
  destruct (limit_of (q * d) phi (1 / (1 - py_c (q * d) phi)) (Cdiv (Cmult (eC (q * d)) (lW (q * d) phi)) (ld (q * d) phi)) Hy Hp) as (K & w0 & HK & Hw & B).
  - apply near_h; [exact Hy|exact Hp|]. unfold gq. lra.
  - symmetry. apply PY_limit; assumption.
  - left. apply Rdiv_lt_0_compat; lra.
  - exists K, w0. split; [exact HK|]. split; [exact Hw|]. intros w Hw'. rewrite unit_diameter by assumption. now apply B.
Qed.
Theorem mono_zero q phi d : 0 < q -> 0 < phi < 1 -> 0 < d -> sin (q * d / 2) = q * d / 2 * cos (q * d / 2) ->
  exists K w0, 0 <= K /\ 0 < w0 /\ forall w, 0 < w < w0 -> Rabs (factor_poly_w q phi [mkSp 1 d w] - 1) <= K * w ^ 2.
Proof.
  intros Hq Hp Hd Hg. assert (Hy : 0 < q * d) by (apply Rmult_lt_0_compat; assumption).
  destruct (limit_of (q * d) phi 1 (RtoC 0) Hy Hp) as (K & w0 & HK & Hw & B).
  - eapply O_ext; [|apply (O_h_zero (q * d) phi Hy Hp); unfold gq; lra]. intros u _. cbv beta. ring.
  - cbn. ring.
  - lra.
  - exists K, w0. split; [exact HK|]. split; [exact Hw|]. intros w Hw'. rewrite unit_diameter by assumption. now apply B.
Qed.
Theorem mono_zero_py y phi : 0 < y -> 0 < phi < 1 -> sin (y / 2) = y / 2 * cos (y / 2) ->
  factor_py y phi = Some ((4 + y ^ 2) / (4 * ((1 + 2 * phi) / (1 - phi)) ^ 2 + y ^ 2)).
Proof.
  intros Hy Hp Hg. destruct (factor_py_value y phi Hy Hp) as [P ->]. rewrite (PY_zero y phi Hy Hp) in * by (unfold gq; lra).
  apply f_equal. unfold v. pose proof (pow2_ge_0 y).
  replace (1 + 3 * (phi / (1 - phi))) with ((1 + 2 * phi) / (1 - phi)) by (field; lra).
  set (a := ((1 + 2 * phi) / (1 - phi)) ^ 2) in *. assert (0 <= a) by apply pow2_ge_0.
  assert (0 < a). { unfold a. apply pow_lt. apply Rdiv_lt_0_compat; lra. }
  field. repeat split; lra.
Qed.
