(** C162: single scattering by the phase function; thin films. *)
From Coq Require Import Lra Lia Psatz Reals List.
From Verif Require Import Num Spec Spec_detector Spec_scat Spec_mean Spec_direct Spec_single Spec_thin M_init M_montecarlo M_detector M_simulation M_scat
  L_num L_sampling L_weights L_mean L_direct L_single L_diffuse L_thin Properties_direct Properties_single Properties_diffuse.
From Verif Require Import Spec_diffuse.
From Coquelicot Require Import Coquelicot.
Import ListNotations.
Open Scope R_scope.

(** ** Averages over a table *)
Section Avg.
Variables (p : list R) (lo : R).
Hypothesis (Hlo : 0 <= lo <= PI) (Hp : List.Forall (fun x => 0 <= x) p) (Ht : 0 < total (map (angle_weight p lo) (seq 0 (length p)))).
Lemma avg_le f g : (forall th, 0 <= th <= PI -> f th <= g th) -> average p lo f <= average p lo g.
Proof.
  intros H. unfold average. assert (G : forall l, (forall i, In i l -> (i < length p)%nat) ->
    total (map (fun i => share (angle_weight p lo) (length p) i * f (grid lo PI (length p) i)) l) <= total (map (fun i => share (angle_weight p lo) (length p) i * g (grid lo PI (length p) i)) l)).
  { induction l as [|i l IH]; intros Hl; cbn [map total]; [lra|]. apply Rplus_le_compat; [|apply IH; intros; apply Hl; now right].
    pose proof (Hl i (or_introl eq_refl)) as Hi. destruct (grid_range lo PI (length p) i ltac:(lra) Hi) as [G1 G2]. apply Rmult_le_compat_l.
    - unfold share. apply Rmult_le_pos; [now apply (w_pos p lo Hlo Hp)|left; apply Rinv_0_lt_compat, Ht].
    - apply H. lra. }
  apply G. intros i Hi. apply in_seq in Hi. lia.
Qed.
Lemma avg_ext f g : (forall th, 0 <= th <= PI -> f th = g th) -> average p lo f = average p lo g.
Proof. intros H. apply Rle_antisym; apply avg_le; intros th Hth; rewrite (H th Hth); lra. Qed.
Lemma avg_scal c f : average p lo (fun th => c * f th) = c * average p lo f.
Proof.
  unfold average. generalize (seq 0 (length p)). intros l. induction l as [|i l IH]; cbn [map total]; [ring|]. rewrite IH. ring.
Qed.
Lemma avg_minus f g : average p lo (fun th => f th - g th) = average p lo f - average p lo g.
Proof.
  unfold average. generalize (seq 0 (length p)). intros l. induction l as [|i l IH]; cbn [map total]; [ring|]. rewrite IH. ring.
Qed.
Lemma avg_nonneg f : (forall th, 0 <= th <= PI -> 0 <= f th) -> 0 <= average p lo f.
Proof.
  intros H. replace 0 with (average p lo (fun _ => 0 * 0)) by (rewrite (avg_scal 0 (fun _ => 0)); ring). apply avg_le. intros th Hth. rewrite Rmult_0_l. now apply H.
Qed.
End Avg.

(** The light that leaves after one scattering, averaged over the polar angle
    (drawn from the phase function) and the two steps. *)
Theorem C162_law : forall p lo nevents ntraj spot pmin pmax mu_scat P D pass,
  0 <= lo <= PI -> List.Forall (fun x => 0 <= x) p -> 0 < total (map (angle_weight p lo) (seq 0 (length p))) ->
  plain_film P -> (1 < nevents)%nat -> (0 < ntraj)%nat -> 0 < mu_scat -> (forall n i, 0 <= d_u D n i < 1) ->
  (forall th, 0 <= th <= PI -> let_out P th (pass th)) ->
  let ext := mu_scat + p_muabs P in let albedo := mu_scat / ext in
  let enter := through (p_nmedium P) (p_nfront P) (p_nsample P) in
  let run t := film_run nevents ntraj spot 0 0 pmin pmax mu_scat P (with_first_scattering p lo t D) in
  is_mean (ntraj * 3) (fun t => once_reflected (run t))
    (albedo ^ 2 * enter * average p lo (fun th => if Rltb (cos th) 0 then pass th * slab_back ext (p_thickness P) (cos th) else 0))
  /\ is_mean (ntraj * 3) (fun t => once_transmitted (run t))
    (albedo ^ 2 * enter * average p lo (fun th => if Rltb 0 (cos th) then pass th * slab_ahead ext (p_thickness P) (cos th) else 0)).
Proof.
  intros p lo nev ntraj spot pmin pmax mu P D pass Hlo Hp Ht HP Hn Hnt Hmu Hu Hpass ext albedo enter run.
  pose proof (plain_tir P HP) as Et. destruct HP as (Hb & Hr & Hg & Hk1 & Hk2 & _ & Hz & Hd & Ha & Hm & Hf & Hbk).
  assert (Hm' : 0 < p_nmedium P <= choose_n_tir P) by now rewrite Et.
  assert (HI : 0 < INR ntraj) by (apply lt_0_INR; lia).
  destruct (thin_means p lo Hlo Hp Ht nev ntraj spot pmin pmax mu P D Hn Hnt Hmu Ha Hu Hb Hr Hg Hz Hk1 Hk2 Hd Hm' Hf Hbk) as [A B].
  split; [refine (eq_ind _ (fun v => is_mean _ _ v) A _ _)|refine (eq_ind _ (fun v => is_mean _ _ v) B _ _)];
    rewrite <- !avg_scal; match goal with |- @eq _ ?l ?r => change (@eq R l r) end; apply (avg_ext p lo Hlo Hp Ht); intros th Hth; destruct (let_out_pf1 P th (pass th) Hth Et (Hpass th Hth)) as [L1 L2].
  - unfold vback. destruct (Rltb (cos th) 0) eqn:E; [|ring]. apply Rltb_true in E. rewrite <- (L1 E), Et. unfold albedo, ext, enter. field. split; lra.
  - unfold vahead. destruct (Rltb 0 (cos th)) eqn:E; [|ring]. apply Rltb_true in E. rewrite <- (L2 E), Et. unfold albedo, ext, enter. field. split; lra.
Qed.
Print Assumptions C162_law.

(** ** Thin films *)
Lemma slab_between (f : R -> R) mu d k v : 0 < mu -> 0 <= d -> 0 <= k -> is_RInt f 0 d v ->
  (forall z, 0 <= z <= d -> mu * exp (- (mu * d * k)) <= f z <= mu) -> mu * d * (1 - mu * d * k) <= v <= mu * d.
Proof.
  intros Hmu Hd Hk Hf B.
  assert (I1 : is_RInt (fun _ => mu * exp (- (mu * d * k))) 0 d (d * (mu * exp (- (mu * d * k))))).
  { refine (eq_ind _ (fun v => is_RInt _ 0 d v) (is_RInt_const 0 d (mu * exp (- (mu * d * k)))) _ _). change ((d - 0) * (mu * exp (- (mu * d * k))) = d * (mu * exp (- (mu * d * k)))). ring. }
  assert (I2 : is_RInt (fun _ => mu) 0 d (d * mu)).
  { refine (eq_ind _ (fun v => is_RInt _ 0 d v) (is_RInt_const 0 d mu) _ _). change ((d - 0) * mu = d * mu). ring. }
  pose proof (is_RInt_le _ _ 0 d _ _ Hd I1 Hf ltac:(intros z Hz; apply B; lra)) as L1.
  pose proof (is_RInt_le _ _ 0 d _ _ Hd Hf I2 ltac:(intros z Hz; apply B; lra)) as L2.
  split; [|lra]. pose proof (exp_ineq1_le (- (mu * d * k))) as E. assert (0 <= mu * d) by (apply Rmult_le_pos; lra).
  assert (mu * d * (1 - mu * d * k) <= mu * d * exp (- (mu * d * k))) by (apply Rmult_le_compat_l; lra). lra.
Qed.
Lemma exp_le a b : a <= b -> exp a <= exp b.
Proof. intros [H| ->]; [left; now apply exp_increasing|lra]. Qed.
Lemma slab_thin mu d c : 0 < mu -> 0 <= d -> c <= 1 ->
  (c < 0 -> mu * d * (1 - mu * d * (1 + / Rabs c)) <= slab_back mu d c <= mu * d)
  /\ (0 < c -> mu * d * (1 - mu * d * (1 + / Rabs c)) <= slab_ahead mu d c <= mu * d).
Proof.
  intros Hmu Hd Hc1. destruct (C158_slab mu d c Hmu Hd) as [S1 S2].
  split; intros Hc; [specialize (S1 Hc); refine (slab_between _ mu d (1 + / Rabs c) _ Hmu Hd _ S1 _)|specialize (S2 Hc); refine (slab_between _ mu d (1 + / Rabs c) _ Hmu Hd _ S2 _)];
    (assert (Hb : 0 < / Rabs c) by (apply Rinv_0_lt_compat, Rabs_pos_lt; lra)); try lra; intros z Hz.
  - assert (X0 : 0 <= z / Rabs c) by (apply Rmult_le_pos; lra). assert (X1 : z / Rabs c <= d * / Rabs c) by (apply Rmult_le_compat_r; lra).
    assert (Y : 0 <= z + z / Rabs c <= d * (1 + / Rabs c)) by lra.
    rewrite (Rmult_assoc mu (exp _) (exp _)), <- exp_plus. split.
    + apply Rmult_le_compat_l; [lra|]. apply exp_le. nra.
    + apply Rle_trans with (mu * exp 0); [|rewrite exp_0; lra]. apply Rmult_le_compat_l; [lra|]. apply exp_le. nra.
  - rewrite Rabs_pos_eq in * by lra. assert (X0 : 0 <= (d - z) / c) by (apply Rmult_le_pos; lra). assert (X1 : (d - z) / c <= d * / c) by (apply Rmult_le_compat_r; lra).
    assert (Y : 0 <= z + (d - z) / c <= d * (1 + / c)) by lra.
    rewrite (Rmult_assoc mu (exp _) (exp _)), <- exp_plus. split.
    + apply Rmult_le_compat_l; [lra|]. apply exp_le. nra.
    + apply Rle_trans with (mu * exp 0); [|rewrite exp_0; lra]. apply Rmult_le_compat_l; [lra|]. apply exp_le. nra.
Qed.

(** Without absorption, the light that leaves after one scattering is never more
    than [thin] times the thickness, where thin = mu_scat times what the surfaces
    let in and out of it, averaged over the angles to that side; and the ratio of
    the mean to the thickness tends to [thin] for thin films. *)
Theorem C162_thin_film : forall p lo nevents ntraj spot pmin pmax mu_scat P D pass,
  0 <= lo <= PI -> List.Forall (fun x => 0 <= x) p -> 0 < total (map (angle_weight p lo) (seq 0 (length p))) ->
  plain_film P -> (1 < nevents)%nat -> (0 < ntraj)%nat -> 0 < mu_scat -> (forall n i, 0 <= d_u D n i < 1) -> p_muabs P = 0 ->
  (forall th, 0 <= th <= PI -> let_out P th (pass th)) ->
  let enter := through (p_nmedium P) (p_nfront P) (p_nsample P) in
  let run d t := film_run nevents ntraj spot 0 0 pmin pmax mu_scat (with_thickness d P) (with_first_scattering p lo t D) in
  let thin_back := mu_scat * enter * average p lo (fun th => if Rltb (cos th) 0 then pass th else 0) in
  let thin_ahead := mu_scat * enter * average p lo (fun th => if Rltb 0 (cos th) then pass th else 0) in
  (forall d, 0 < d -> exists r t, is_mean (ntraj * 3) (fun x => once_reflected (run d x)) r /\ is_mean (ntraj * 3) (fun x => once_transmitted (run d x)) t
     /\ 0 <= r <= thin_back * d /\ 0 <= t <= thin_ahead * d)
  /\ (forall eps, 0 < eps -> exists d0, 0 < d0 /\ forall d, 0 < d < d0 ->
     exists r t, is_mean (ntraj * 3) (fun x => once_reflected (run d x)) r /\ is_mean (ntraj * 3) (fun x => once_transmitted (run d x)) t
       /\ Rabs (r / d - thin_back) < eps /\ Rabs (t / d - thin_ahead) < eps).
Proof.
  intros p lo nev ntraj spot pmin pmax mu P D pass Hlo Hp Ht HP Hn Hnt Hmu Hu Ha Hpass enter run thin_back thin_ahead.
  pose proof (plain_tir P HP) as Et.
  assert (HPd : forall d, 0 < d -> plain_film (with_thickness d P)).
  { intros d Hd. destruct HP as (Hb & Hr & Hg & Hk1 & Hk2 & Hnp & Hz & _ & Hab & Hm & Hf & Hbk).
    exact (conj Hb (conj Hr (conj Hg (conj Hk1 (conj Hk2 (conj Hnp (conj Hz (conj Hd (conj Hab (conj Hm (conj Hf Hbk))))))))))). }
  assert (Law : forall d, 0 < d ->
     is_mean (ntraj * 3) (fun x => once_reflected (run d x)) (enter * average p lo (fun th => if Rltb (cos th) 0 then pass th * slab_back mu d (cos th) else 0))
     /\ is_mean (ntraj * 3) (fun x => once_transmitted (run d x)) (enter * average p lo (fun th => if Rltb 0 (cos th) then pass th * slab_ahead mu d (cos th) else 0))).
  { intros d Hd. destruct (C162_law p lo nev ntraj spot pmin pmax mu (with_thickness d P) D pass Hlo Hp Ht (HPd d Hd) Hn Hnt Hmu Hu Hpass) as [A B].
    change (p_muabs (with_thickness d P)) with (p_muabs P) in A, B. rewrite Ha, Rplus_0_r in A, B. replace (mu / mu) with 1 in A, B by (field; lra). rewrite pow1, Rmult_1_l in A, B. exact (conj A B). }
  destruct HP as (Hb & Hr & Hg & Hk1 & Hk2 & _ & Hz & _ & _ & Hm & Hf & Hbk).
  assert (Pb : forall th, 0 <= th <= PI -> (cos th < 0 -> 0 <= pass th) /\ (0 < cos th -> 0 <= pass th)).
  { intros th Hth. destruct (let_out_pf1 P th (pass th) Hth Et (Hpass th Hth)) as [L1 L2].
    split; intros Hc; [rewrite (L1 Hc)|rewrite (L2 Hc)]; apply pf1_bounds; rewrite ?Et; try lra; try assumption; apply (L_rough.film_angle_le (cos th)). }
  assert (He : 0 <= enter <= 1).
  { assert (Q : 0 < enter <= 1) by (apply (through_range (p_nmedium P) (p_nfront P) (p_nsample P)); [lra|lra|exact Hf]). lra. }
  (* one side *)
  assert (Side : forall (sel : R -> bool) (sl : R -> R -> R),
    (forall d th, 0 < d -> 0 <= th <= PI -> sel (cos th) = true -> 0 <= pass th /\ cos th <> 0 /\ mu * d * (1 - mu * d * (1 + / Rabs (cos th))) <= sl d (cos th) <= mu * d) ->
    (forall d c, 0 < d -> sel c = true -> 0 <= sl d c) ->
    let thin := mu * enter * average p lo (fun th => if sel (cos th) then pass th else 0) in
    let E := mu ^ 2 * enter * average p lo (fun th => if sel (cos th) then pass th * (1 + / Rabs (cos th)) else 0) in
    0 <= E /\ forall d, 0 < d -> let m := enter * average p lo (fun th => if sel (cos th) then pass th * sl d (cos th) else 0) in
      0 <= m <= thin * d /\ Rabs (m / d - thin) <= d * E).
  { intros sel sl HS HS0 thin E. 
    assert (E0 : 0 <= E).
    { unfold E. apply Rmult_le_pos; [apply Rmult_le_pos; [apply pow2_ge_0|apply He]|]. apply (avg_nonneg p lo Hlo Hp Ht). intros th Hth.
      destruct (sel (cos th)) eqn:Es; [|lra]. destruct (HS 1 th Rlt_0_1 Hth Es) as (P0 & N & _). assert (0 < / Rabs (cos th)) by (now apply Rinv_0_lt_compat, Rabs_pos_lt). apply Rmult_le_pos; lra. }
    split; [exact E0|]. intros d Hd m.
    assert (M0 : 0 <= m).
    { unfold m. apply Rmult_le_pos; [apply He|]. apply (avg_nonneg p lo Hlo Hp Ht). intros th Hth. destruct (sel (cos th)) eqn:Es; [|lra].
      destruct (HS d th Hd Hth Es) as (P0 & _). apply Rmult_le_pos; [exact P0|now apply HS0]. }
    assert (M1 : m <= thin * d).
    { unfold m, thin. replace (mu * enter * average p lo (fun th => if sel (cos th) then pass th else 0) * d) with (enter * (mu * d * average p lo (fun th => if sel (cos th) then pass th else 0))) by ring.
      apply Rmult_le_compat_l; [apply He|]. rewrite <- avg_scal. apply (avg_le p lo Hlo Hp Ht). intros th Hth. destruct (sel (cos th)) eqn:Es; [|lra].
      destruct (HS d th Hd Hth Es) as (P0 & _ & _ & S2). rewrite Rmult_comm. apply Rmult_le_compat_r; assumption. }
    assert (M2 : thin * d - d * d * E <= m).
    { unfold m, thin, E.
      replace (mu * enter * average p lo (fun th => if sel (cos th) then pass th else 0) * d - d * d * (mu ^ 2 * enter * average p lo (fun th => if sel (cos th) then pass th * (1 + / Rabs (cos th)) else 0)))
        with (enter * (mu * d * average p lo (fun th => if sel (cos th) then pass th else 0) - (mu * d) ^ 2 * average p lo (fun th => if sel (cos th) then pass th * (1 + / Rabs (cos th)) else 0))) by ring.
      apply Rmult_le_compat_l; [apply He|]. rewrite <- !avg_scal, <- avg_minus. apply (avg_le p lo Hlo Hp Ht). intros th Hth. destruct (sel (cos th)) eqn:Es; [|lra].
      destruct (HS d th Hd Hth Es) as (P0 & _ & S1 & _). 
      replace (mu * d * pass th - (mu * d) ^ 2 * (pass th * (1 + / Rabs (cos th)))) with (pass th * (mu * d * (1 - mu * d * (1 + / Rabs (cos th))))) by ring.
      apply Rmult_le_compat_l; assumption. }
    split; [split; assumption|]. replace (m / d - thin) with ((m - thin * d) / d) by (field; lra). unfold Rdiv. rewrite Rabs_mult, (Rabs_pos_eq (/ d)) by (left; now apply Rinv_0_lt_compat).
    apply (Rmult_le_reg_r d); [exact Hd|]. rewrite Rmult_assoc, Rinv_l, Rmult_1_r by lra. clearbody m thin E. apply Rabs_le. assert (0 <= d * E * d) by (apply Rmult_le_pos; [apply Rmult_le_pos|]; lra). split; nra. }
  assert (SB := Side (fun c => Rltb c 0) (slab_back mu)). assert (SA := Side (fun c => Rltb 0 c) (slab_ahead mu)). clear Side.
  cbv zeta in SB, SA. cbv beta in SB, SA.
  destruct SB as [EB SB].
  { intros d th Hd Hth Es. apply Rltb_true in Es. destruct (slab_thin mu d (cos th) Hmu ltac:(lra) ltac:(apply COS_bound)) as [S1 _]. split; [exact (proj1 (Pb th Hth) Es)|]. split; [lra|]. exact (S1 Es). }
  { intros d c Hd Es. apply Rltb_true in Es. left. now apply slab_back_pos. }
  destruct SA as [EA SA].
  { intros d th Hd Hth Es. apply Rltb_true in Es. destruct (slab_thin mu d (cos th) Hmu ltac:(lra) ltac:(apply COS_bound)) as [_ S2]. split; [exact (proj2 (Pb th Hth) Es)|]. split; [lra|]. exact (S2 Es). }
  { intros d c Hd Es. apply Rltb_true in Es. destruct (C158_slab mu d c Hmu ltac:(lra)) as [_ S2]. specialize (S2 Es).
    refine (is_RInt_ge_0 _ 0 d _ _ S2 _); [lra|]. intros z Hz0. apply Rmult_le_pos; [apply Rmult_le_pos; [lra|]|]; left; apply exp_pos. }
  fold thin_back in SB. fold thin_ahead in SA.
  set (E1 := mu ^ 2 * enter * average p lo (fun th => if Rltb (cos th) 0 then _ else 0)) in *. set (E2 := mu ^ 2 * enter * average p lo (fun th => if Rltb 0 (cos th) then _ else 0)) in *.
  split.
  - intros d Hd. destruct (Law d Hd) as [L1 L2]. eexists. eexists. split; [exact L1|]. split; [exact L2|]. split; [apply (SB d Hd)|apply (SA d Hd)].
  - intros eps Heps. exists (eps / (E1 + E2 + 1)). assert (X : 0 < E1 + E2 + 1) by lra. split; [now apply Rdiv_lt_0_compat|]. intros d [Hd Hd0].
    assert (Y : d * (E1 + E2 + 1) < eps) by (apply (Rmult_lt_compat_r _ _ _ X) in Hd0; unfold Rdiv in Hd0; rewrite Rmult_assoc, Rinv_l, Rmult_1_r in Hd0 by lra; exact Hd0).
    destruct (Law d Hd) as [L1 L2]. eexists. eexists. split; [exact L1|]. split; [exact L2|].
    destruct (SB d Hd) as [_ B1]. destruct (SA d Hd) as [_ A1]. clearbody E1 E2. split; [apply (Rle_lt_trans _ _ _ B1)|apply (Rle_lt_trans _ _ _ A1)]; nra.
Qed.
Print Assumptions C162_thin_film.

(** Light scattered at 150 degrees (the only angle of the table with a solid
    angle) in the film of C156. *)
Example C162_case : let p := cons 1 (cons 1 nil) in let lo := 5 * (PI / 6) in
  plain_film (direct_film 0) /\ p_muabs (direct_film 0) = 0 /\ (forall n i, 0 <= d_u single_draws n i < 1)
  /\ 0 <= lo <= PI /\ List.Forall (fun x => 0 <= x) p /\ 0 < total (map (angle_weight p lo) (seq 0 (length p)))
  /\ exists pass, (forall th, 0 <= th <= PI -> let_out (direct_film 0) th (pass th)) /\ 0 < average p lo (fun th => if Rltb (cos th) 0 then pass th else 0).
Proof.
  intros p lo. pose proof PI_RGT_0 as HP.
  assert (G0 : grid lo PI 2 0 = lo) by (unfold grid; cbn; ring).
  assert (G1 : grid lo PI 2 1 = PI) by (unfold grid; cbn [Nat.sub INR]; unfold lo; field).
  assert (S0 : sin lo = 1 / 2) by (unfold lo; replace (5 * (PI / 6)) with (PI - PI / 6) by field; rewrite Rtrigo_facts.sin_pi_minus; apply sin_PI6).
  assert (C0 : cos lo = - (sqrt 3 / 2)) by (unfold lo; replace (5 * (PI / 6)) with (PI - PI / 6) by field; rewrite Rtrigo_facts.cos_pi_minus, cos_PI6; reflexivity).
  pose proof (sqrt_lt_R0 3 ltac:(lra)) as S3.
  assert (W0 : angle_weight p lo 0 = 1 / 2) by (unfold angle_weight; change (length p) with 2%nat; rewrite G0, S0; cbn; ring).
  assert (W1 : angle_weight p lo 1 = 0) by (unfold angle_weight; change (length p) with 2%nat; rewrite G1, sin_PI; ring).
  split; [exact (proj1 (C156_case 0 (Rle_refl 0)))|]. split; [reflexivity|]. split; [intros; cbn; lra|].
  split; [unfold lo; lra|]. split; [repeat (apply List.Forall_cons; [lra|]); apply List.Forall_nil|].
  split; [change (length p) with 2%nat; cbn [seq map total]; lra|].
  set (pass := fun th => if Rltb (cos th) 0 then pf1 (5 / 4) (Some (3 / 2)) 1 (PI - th) else pf1 (5 / 4) None 1 th).
  assert (Pk : forall th, 0 <= th <= PI -> let_out (direct_film 0) th (pass th)).
  { intros th Hth. unfold let_out, pass. cbn [direct_film p_nsample p_nfront p_nback p_nmedium].
    destruct (Rltb (cos th) 0) eqn:E.
    - apply Rltb_true in E. assert (PI / 2 < th) by (destruct (Rle_lt_dec th (PI / 2)) as [L|L]; [pose proof (cos_ge_0 th ltac:(lra) L); lra|exact L]).
      rewrite pass_frac_ok; [reflexivity|]. constructor; [lra|constructor].
    - apply Rltb_false in E. assert (th <= PI / 2) by (destruct (Rle_lt_dec th (PI / 2)) as [L|L]; [exact L|pose proof (cos_lt_0 th L ltac:(lra)); lra]).
      rewrite pass_frac_ok; [reflexivity|]. constructor; [lra|constructor]. }
  exists pass. split; [exact Pk|].
  unfold average, share. change (length p) with 2%nat. cbn [seq map total]. rewrite W0, W1, G0, G1.
  assert (Q : 0 < pass lo).
  { unfold pass. rewrite (proj2 (Rltb_true (cos lo) 0)) by lra. apply pf1_pos; try lra.
    - intros n E. injection E as <-. rewrite Rtrigo_facts.sin_pi_minus, S0. lra.
    - unfold lo. lra.
    - rewrite Rtrigo_facts.sin_pi_minus, S0. lra. }
  rewrite (proj2 (Rltb_true (cos lo) 0)) by lra. unfold Rdiv. rewrite Rmult_0_l, Rmult_0_l, !Rplus_0_r.
  replace (1 * / 2 * / (1 * / 2) * pass lo) with (pass lo) by field. exact Q.
Qed.
