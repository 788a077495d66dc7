(** C158: light scattered once.  Vocabulary in Spec_single.v, Spec_direct.v and
    Spec_mean.v. *)
From Coq Require Import Lra Lia Psatz Reals List.
From Verif Require Import Num Spec Spec_detector Spec_mean Spec_direct Spec_single M_init M_montecarlo M_detector M_simulation
  L_num L_weights L_mean L_periodic L_direct L_estimate L_single Properties_simulation Properties_direct.
From Coquelicot Require Import Coquelicot.
Import ListNotations.
Open Scope R_scope.

(** The slab integrals of the specification are what they say. *)
Theorem C158_slab : forall mu d c, 0 < mu -> 0 <= d ->
  (c < 0 -> is_RInt (fun z => mu * exp (- (mu * z)) * exp (- (mu * (z / Rabs c)))) 0 d (slab_back mu d c))
  /\ (0 < c -> is_RInt (fun z => mu * exp (- (mu * z)) * exp (- (mu * ((d - z) / c)))) 0 d (slab_ahead mu d c)).
Proof.
  intros mu d c Hmu Hd. split; intros Hc.
  - assert (Hb : 0 < Rabs c) by (rewrite Rabs_left; lra). set (b := Rabs c) in *. assert (0 < / b) by now apply Rinv_0_lt_compat.
    assert (N : 0 < mu * (1 + / b)) by (apply Rmult_lt_0_compat; lra).
    pose proof (is_RInt_scal _ 0 d mu _ (exp_integral (- (mu * (1 + / b))) d Hd)) as Q.
    apply (is_RInt_ext _ (fun z => mu * exp (- (mu * z)) * exp (- (mu * (z / b))))) in Q.
    + refine (eq_ind _ (fun v => is_RInt _ 0 d v) Q _ _). change (mu * exp_area (- (mu * (1 + / b))) d = slab_back mu d c).
      unfold exp_area, slab_back. fold b. rewrite (proj2 (Reqb_false (- (mu * (1 + / b))) 0)) by lra.
      replace (- (mu * (1 + / b)) * d) with (- (mu * d * (1 + / b))) by ring. field. repeat split; lra.
    + intros z _. change (mu * exp (- (mu * (1 + / b)) * z) = mu * exp (- (mu * z)) * exp (- (mu * (z / b)))). rewrite Rmult_assoc, <- exp_plus. do 2 f_equal. field. lra.
  - pose proof (is_RInt_scal _ 0 d (mu * exp (- (mu * d / c))) _ (exp_integral (mu * (1 - c) / c) d Hd)) as Q.
    apply (is_RInt_ext _ (fun z => mu * exp (- (mu * z)) * exp (- (mu * ((d - z) / c))))) in Q.
    + refine (eq_ind _ (fun v => is_RInt _ 0 d v) Q _ _). change (mu * exp (- (mu * d / c)) * exp_area (mu * (1 - c) / c) d = slab_ahead mu d c).
      unfold exp_area, slab_ahead. destruct (Reqb c 1) eqn:E.
      * apply Reqb_true in E. subst c. replace (mu * (1 - 1) / 1) with 0 by field. rewrite (proj2 (Reqb_true 0 0)) by reflexivity.
        replace (mu * d / 1) with (mu * d) by field. ring.
      * apply Reqb_false in E. rewrite (proj2 (Reqb_false (mu * (1 - c) / c) 0)).
        -- replace (- (mu * d)) with (- (mu * d / c) + mu * (1 - c) / c * d) by (field; lra). rewrite exp_plus. field. repeat split; lra.
        -- intros Z. assert (K : mu * (1 - c) = 0) by (replace (mu * (1 - c)) with (mu * (1 - c) / c * c) by (field; lra); rewrite Z; ring).
           apply Rmult_integral in K. lra.
    + intros z _. change (mu * exp (- (mu * d / c)) * exp (mu * (1 - c) / c * z) = mu * exp (- (mu * z)) * exp (- (mu * ((d - z) / c)))).
      rewrite !Rmult_assoc, <- !exp_plus. do 2 f_equal. field. lra.
Qed.
Print Assumptions C158_slab.

(** What the surfaces let out of light scattered at the angle theta to the
    inward normal, as fresnel_pass_frac says: [p]. *)
Definition let_out (P : params) (theta p : R) : Prop :=
  fresnel_pass_frac (p_nsample P) (if Rltb (cos theta) 0 then p_nfront P else p_nback P) (p_nmedium P)
    (cons (if Rltb (cos theta) 0 then PI - theta else theta) nil) = Ok (cons p nil).
Lemma let_out_pf1 P theta p : 0 <= theta <= PI -> choose_n_tir P = p_nsample P -> let_out P theta p ->
  (cos theta < 0 -> p = pf1 (choose_n_tir P) (p_nfront P) (p_nmedium P) (acos (Rabs (cos theta))))
  /\ (0 < cos theta -> p = pf1 (choose_n_tir P) (p_nback P) (p_nmedium P) (acos (Rabs (cos theta)))).
Proof.
  intros Hth Et H. unfold let_out in H. apply pass_frac_inv in H. destruct H as [E _]. cbn [map] in E. injection E as E. rewrite Et. split; intros Hc.
  - rewrite (proj2 (Rltb_true _ _) Hc) in E. rewrite E. f_equal. rewrite Rabs_left by exact Hc. rewrite <- Rtrigo_facts.cos_pi_minus. rewrite acos_cos; lra.
  - rewrite (proj2 (Rltb_false (cos theta) 0)) in E by lra. rewrite E. f_equal. rewrite Rabs_pos_eq by lra. rewrite acos_cos; lra.
Qed.

(** The law of the code: trajectory i is scattered first at the polar angle
    [theta i]; averaged over the first two steps. *)
Theorem C158_law : forall nevents ntraj spot pmin pmax mu_scat P D pass,
  plain_film P -> (1 < nevents)%nat -> (0 < ntraj)%nat -> 0 < mu_scat -> (forall n i, 0 <= d_u D n i < 1) ->
  let theta i := fst (d_ang D i 0%nat) in
  (forall i, (i < ntraj)%nat -> 0 <= theta i <= PI /\ let_out P (theta i) (pass i)) ->
  let ext := mu_scat + p_muabs P in let albedo := mu_scat / ext in
  let enter := through (p_nmedium P) (p_nfront P) (p_nsample P) in
  let run t := film_run nevents ntraj spot 0 0 pmin pmax mu_scat P (with_two_draws t D) in
  is_mean (ntraj * 2) (fun t => once_reflected (run t))
    (albedo ^ 2 * enter * average ntraj (fun i => if Rltb (cos (theta i)) 0 then pass i * slab_back ext (p_thickness P) (cos (theta i)) else 0))
  /\ is_mean (ntraj * 2) (fun t => once_transmitted (run t))
    (albedo ^ 2 * enter * average ntraj (fun i => if Rltb 0 (cos (theta i)) then pass i * slab_ahead ext (p_thickness P) (cos (theta i)) else 0)).
Proof.
  intros nev ntraj spot pmin pmax mu P D pass HP Hn Hnt Hmu Hu theta Hth ext albedo enter run.
  pose proof (plain_tir P HP) as Et. destruct HP as (Hb & Hr & Hg & Hk1 & Hk2 & _ & Hz & Hd & Ha & Hm & Hf & Hbk).
  assert (Hm' : 0 < p_nmedium P <= choose_n_tir P) by now rewrite Et.
  assert (HI : 0 < INR ntraj) by (apply lt_0_INR; lia).
  destruct (once_means nev ntraj spot pmin pmax mu P D Hn Hnt Hmu Ha Hu Hb Hr Hg Hz Hk1 Hk2 Hd Hm' Hf Hbk) as [A B].
  assert (G : forall x y : nat -> R, (forall i, (i < ntraj)%nat -> x i = albedo ^ 2 * enter * y i / INR ntraj) ->
    total (map x (seq 0 ntraj)) = albedo ^ 2 * enter * average ntraj y).
  { intros x y H. unfold average. change (fold_right Rplus 0 (map y (seq 0 ntraj))) with (total (map y (seq 0 ntraj))).
    rewrite (map_ext_in x (fun i => albedo ^ 2 * enter / INR ntraj * y i)).
    - rewrite total_map_scale. field. lra.
    - intros i Hi. apply in_seq in Hi. rewrite H by lia. field. lra. }
  split; [refine (eq_ind _ (fun v => is_mean _ _ v) A _ _)|refine (eq_ind _ (fun v => is_mean _ _ v) B _ _)]; apply G; intros i Hi;
    destruct (Hth i Hi) as [H1 H2]; destruct (let_out_pf1 P (theta i) (pass i) H1 Et H2) as [L1 L2]; fold (theta i).
  - destruct (Rltb (cos (theta i)) 0) eqn:E; [|unfold Rdiv; ring]. apply Rltb_true in E. rewrite <- (L1 E). rewrite Et. unfold albedo, ext, enter, Rdiv. ring.
  - destruct (Rltb 0 (cos (theta i))) eqn:E; [|unfold Rdiv; ring]. apply Rltb_true in E. rewrite <- (L2 E). rewrite Et. unfold albedo, ext, enter, Rdiv. ring.
Qed.
Print Assumptions C158_law.

(** Without absorption this is single scattering in a slab: the entrance
    fraction times the slab integral times the exit fraction, averaged over the
    scattering angles. *)
Theorem C158_single_scattering : forall nevents ntraj spot pmin pmax mu_scat P D pass,
  plain_film P -> (1 < nevents)%nat -> (0 < ntraj)%nat -> 0 < mu_scat -> (forall n i, 0 <= d_u D n i < 1) -> p_muabs P = 0 ->
  let theta i := fst (d_ang D i 0%nat) in
  (forall i, (i < ntraj)%nat -> 0 <= theta i <= PI /\ let_out P (theta i) (pass i)) ->
  let enter := through (p_nmedium P) (p_nfront P) (p_nsample P) in
  let run t := film_run nevents ntraj spot 0 0 pmin pmax mu_scat P (with_two_draws t D) in
  is_mean (ntraj * 2) (fun t => once_reflected (run t))
    (enter * average ntraj (fun i => if Rltb (cos (theta i)) 0 then pass i * slab_back mu_scat (p_thickness P) (cos (theta i)) else 0))
  /\ is_mean (ntraj * 2) (fun t => once_transmitted (run t))
    (enter * average ntraj (fun i => if Rltb 0 (cos (theta i)) then pass i * slab_ahead mu_scat (p_thickness P) (cos (theta i)) else 0)).
Proof.
  intros nev ntraj spot pmin pmax mu P D pass HP Hn Hnt Hmu Hu Ha theta Hth enter run.
  pose proof (C158_law nev ntraj spot pmin pmax mu P D pass HP Hn Hnt Hmu Hu Hth) as L. cbv zeta in L. rewrite Ha, Rplus_0_r in L.
  replace ((mu / mu) ^ 2) with 1 in L by (field; lra). rewrite !Rmult_1_l in L. exact L.
Qed.
Print Assumptions C158_single_scattering.

Lemma slab_back_pos mu d c : 0 < mu -> 0 < d -> c < 0 -> 0 < slab_back mu d c.
Proof.
  intros Hmu Hd Hc. unfold slab_back. assert (0 < Rabs c) by (rewrite Rabs_left; lra). assert (0 < / Rabs c) by now apply Rinv_0_lt_compat.
  apply Rmult_lt_0_compat; [apply Rdiv_lt_0_compat; lra|]. assert (exp (- (mu * d * (1 + / Rabs c))) < 1); [|lra].
  apply Rlt_le_trans with (exp 0); [|rewrite exp_0; lra]. apply exp_increasing. assert (0 < mu * d * (1 + / Rabs c)); [|lra]. apply Rmult_lt_0_compat; [apply Rmult_lt_0_compat; lra|lra].
Qed.

(** With absorption the scattered share of the extinction is one albedo; the
    code's mean has two, whenever any of the light comes out at all. *)
Theorem C158_absorbing_refuted : forall nevents ntraj spot pmin pmax mu_scat P D pass j,
  plain_film P -> (1 < nevents)%nat -> 0 < mu_scat -> (forall n i, 0 <= d_u D n i < 1) -> 0 < p_muabs P ->
  let theta i := fst (d_ang D i 0%nat) in
  (forall i, (i < ntraj)%nat -> 0 <= theta i <= PI /\ let_out P (theta i) (pass i)) ->
  (j < ntraj)%nat -> cos (theta j) < 0 -> 0 < pass j ->
  let ext := mu_scat + p_muabs P in
  let enter := through (p_nmedium P) (p_nfront P) (p_nsample P) in
  let run t := film_run nevents ntraj spot 0 0 pmin pmax mu_scat P (with_two_draws t D) in
  let right := mu_scat / ext * enter * average ntraj (fun i => if Rltb (cos (theta i)) 0 then pass i * slab_back ext (p_thickness P) (cos (theta i)) else 0) in
  0 < right /\ ~ is_mean (ntraj * 2) (fun t => once_reflected (run t)) right.
Proof.
  intros nev ntraj spot pmin pmax mu P D pass j HP Hn Hmu Hu Ha theta Hth Hj Hc Hpj ext enter run right.
  pose proof (C158_law nev ntraj spot pmin pmax mu P D pass HP Hn ltac:(lia) Hmu Hu Hth) as [L _]. fold theta ext enter in L.
  set (av := average _ _) in L. pose proof (plain_tir P HP) as Et.
  destruct HP as (Hb & Hr & Hg & Hk1 & Hk2 & _ & Hz & Hd & _ & Hm & Hf & Hbk).
  assert (He : 0 < enter) by (apply through_range; assumption || lra).
  assert (HI : 0 < INR ntraj) by (apply lt_0_INR; lia).
  assert (Hx : 0 < ext) by (unfold ext; lra).
  assert (Hs : forall c, c < 0 -> 0 < slab_back ext (p_thickness P) c).
  { intros c H. now apply slab_back_pos. }
  assert (Hp : forall i, (i < ntraj)%nat -> cos (theta i) < 0 -> 0 <= pass i).
  { intros i Hi H. destruct (Hth i Hi) as [H1 H2]. destruct (let_out_pf1 P (theta i) (pass i) H1 Et H2) as [L1 _]. rewrite (L1 H).
    apply pf1_bounds; rewrite ?Et; try lra; try assumption. apply (L_rough.film_angle_le (cos (theta i))). }
  assert (Hav : 0 < av).
  { unfold av, average. apply Rdiv_lt_0_compat; [|exact HI]. change (0 < total (map (fun i => if Rltb (cos (theta i)) 0 then pass i * slab_back ext (p_thickness P) (cos (theta i)) else 0) (seq 0 ntraj))).
    assert (K : forall l, (forall i, In i l -> (i < ntraj)%nat) -> 0 <= total (map (fun i => if Rltb (cos (theta i)) 0 then pass i * slab_back ext (p_thickness P) (cos (theta i)) else 0) l)
      /\ (In j l -> 0 < total (map (fun i => if Rltb (cos (theta i)) 0 then pass i * slab_back ext (p_thickness P) (cos (theta i)) else 0) l))).
    { induction l as [|i l IH]; intros Hl; cbn [map total]; [split; [lra|intros []]|].
      destruct IH as [I1 I2]; [intros; apply Hl; now right|].
      assert (X : 0 <= (if Rltb (cos (theta i)) 0 then pass i * slab_back ext (p_thickness P) (cos (theta i)) else 0)).
      { destruct (Rltb (cos (theta i)) 0) eqn:E; [|lra]. apply Rltb_true in E. apply Rmult_le_pos; [apply Hp; [apply Hl; now left|exact E]|left; now apply Hs]. }
      split; [lra|]. intros [->|Hin]; [|specialize (I2 Hin); lra]. rewrite (proj2 (Rltb_true _ _) Hc). 
      assert (0 < pass j * slab_back ext (p_thickness P) (cos (theta j))) by (apply Rmult_lt_0_compat; [exact Hpj|now apply Hs]). lra. }
    apply K; [intros i Hi; apply in_seq in Hi; lia|apply in_seq; lia]. }
  assert (Hal : 0 < mu / ext < 1) by (split; [apply Rdiv_lt_0_compat; assumption|apply (Rmult_lt_reg_r ext); [exact Hx|]; unfold Rdiv; rewrite Rmult_assoc, Rinv_l, Rmult_1_r, Rmult_1_l by (apply Rgt_not_eq; exact Hx); unfold ext; lra]).
  assert (Hea : 0 < enter * av) by (now apply Rmult_lt_0_compat).
  unfold right. fold av. split; [rewrite Rmult_assoc; apply Rmult_lt_0_compat; [apply Hal|exact Hea]|].
  intros M. pose proof (is_mean_unique _ _ _ _ _ (fun t => eq_refl) M L) as E.
  clear - Hal Hea E. set (w := mu / ext) in *. change (w * enter * av = w ^ 2 * enter * av) in E. assert (X : w * (1 - w) * (enter * av) = 0) by (replace (w * (1 - w) * (enter * av)) with (w * enter * av - w ^ 2 * enter * av) by ring; rewrite E; ring).
  assert (0 < w * (1 - w)) by (clear - Hal; clearbody w; nra). apply Rmult_integral in X. destruct X as [X|X]; [rewrite X in H|rewrite X in Hea]; eapply Rlt_irrefl; eassumption.
Qed.
Print Assumptions C158_absorbing_refuted.

(** Two trajectories, one scattered straight back and one at 30 degrees
    forwards, in a film with a coverslip: both come out. *)
Definition single_draws : draws :=
  mk_draws (fun _ => 0) (fun _ => 0) (fun _ => 1 / 2) (fun _ => 1 / 4) (fun i _ => match i with O => (PI, 0) | _ => (PI / 6, 1) end)
    (fun _ _ => 1 / 2) (fun _ _ _ => (0, 0)) (fun _ _ _ => 0).
Example C158_case : forall mua, 0 <= mua -> plain_film (direct_film mua) /\ (forall n i, 0 <= d_u single_draws n i < 1)
  /\ exists pass, (forall i, (i < 2)%nat -> 0 <= fst (d_ang single_draws i 0%nat) <= PI /\ let_out (direct_film mua) (fst (d_ang single_draws i 0%nat)) (pass i))
      /\ 0 < pass 0%nat /\ 0 < pass 1%nat /\ cos (fst (d_ang single_draws 0 0%nat)) < 0 /\ 0 < cos (fst (d_ang single_draws 1 0%nat)).
Proof.
  intros mua Ha. destruct (C156_case mua Ha) as [H _]. split; [exact H|]. split; [intros n i; cbn; lra|]. pose proof PI_RGT_0 as HP.
  assert (C6 : 0 < cos (PI / 6)) by (apply cos_gt_0; lra).
  exists (fun i => match i with O => pf1 (5 / 4) (Some (3 / 2)) 1 (PI - PI) | _ => pf1 (5 / 4) None 1 (PI / 6) end).
  split; [|split; [|split; [|split]]].
  - intros [|[|i]] Hi; [| |lia]; cbn [d_ang single_draws fst]; (split; [lra|]); unfold let_out.
    + rewrite (proj2 (Rltb_true (cos PI) 0)) by (rewrite cos_PI; lra). cbn [direct_film p_nsample p_nfront p_nmedium]. rewrite pass_frac_ok; [reflexivity|]. constructor; [lra|constructor].
    + rewrite (proj2 (Rltb_false (cos (PI / 6)) 0)) by lra. cbn [direct_film p_nsample p_nback p_nmedium]. rewrite pass_frac_ok; [reflexivity|]. constructor; [lra|constructor].
  - replace (PI - PI) with 0 by ring. apply pf1_pos; rewrite ?sin_0; try lra. intros n E. injection E as <-. lra.
  - apply pf1_pos; rewrite ?sin_PI6; try lra. intros n E. discriminate.
  - cbn. rewrite cos_PI. lra.
  - exact C6.
Qed.
