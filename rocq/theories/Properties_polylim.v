(** C142-C143: limits of the polydisperse structure factor, and the size
    distribution behind it. *)
From Verif Require Import Num L_num M_structure L_poly L_polylim L_polypos L_polymom.
From Coq Require Import Lra Lia.
From Coquelicot Require Import Complex.
Open Scope R_scope.

(** A mixture the function accepts: one or two species, non-negative
    concentrations of which at least one is positive, positive diameters. *)
Definition mixture (l : list species) : Prop :=
  (length l = 1 \/ length l = 2)%nat /\ (forall k, In k l -> 0 <= sp_c k /\ 0 < sp_d k) /\ exists k, In k l /\ 0 < sp_c k.
(** The width of the size distribution the code uses. *)
Definition width (k : species) : R := Rmax (sp_pdi k) 1e-5.
Lemma width_floor k : pdi_floor (sp_pdi k) = width k.
Proof.
  unfold width, pdi_floor. destruct (Rltb (sp_pdi k) 1e-5) eqn:E.
  - apply Rltb_true in E. rewrite Rmax_right by lra. reflexivity.
  - apply Rltb_false in E. rewrite Rmax_left by lra. reflexivity.
Qed.
Lemma mix_good l : mixture l -> Forall good_sp l.
Proof. intros (_ & H & _). apply Forall_forall. exact H. Qed.

(** What the code computes with: the same species, the width raised. *)
Lemma mix_floor l : mixture l -> (length (map floor_sp l) = 1 \/ length (map floor_sp l) = 2)%nat /\ Forall good_sp (map floor_sp l) /\
  (forall k, In k (map floor_sp l) -> 0 < sp_pdi k) /\ exists k, In k (map floor_sp l) /\ 0 < sp_c k.
Proof.
  intros H. split; [rewrite map_length; apply H|]. split; [now apply good_floor, mix_good|]. split.
  - intros k Hk. apply in_map_iff in Hk as (j & <- & _). apply floor_pos.
  - destruct H as (_ & _ & k & Hk & Hc). exists (floor_sp k). split; [now apply in_map|exact Hc].
Qed.

(** C142: at large scattering vectors the particles are uncorrelated: S(q) tends
    to 1, with an error of at most K/q^2; neither the determinant nor the
    normalisation the code divides by vanishes there. *)
Theorem C142_high_q : forall phi l, 0 < phi < 1 -> mixture l ->
  exists K Q, 0 < Q /\ forall q, Q < q ->
    FFdet q phi (map floor_sp l) <> RtoC 0 /\ I0 q phi (map floor_sp l) <> RtoC 0 /\ Rabs (factor_poly q phi l - 1) <= K / q ^ 2.
Proof. intros phi l Hp Hm. destruct (mix_floor l Hm) as (A & B & D & E). apply high_q; assumption. Qed.
Print Assumptions C142_high_q.

(** ... and so they are in the dilute limit, at every scattering vector: the
    error is at most proportional to the volume fraction. *)
Theorem C142_dilute : forall q l, q <> 0 -> mixture l ->
  exists K P, 0 < P < 1 /\ forall phi, 0 < phi < P ->
    FFdet q phi (map floor_sp l) <> RtoC 0 /\ Rabs (factor_poly q phi l - 1) <= K * phi.
Proof. intros q l Hq Hm. destruct (mix_floor l Hm) as (A & B & D & E). apply dilute; assumption. Qed.
Print Assumptions C142_dilute.

(** The normalisation (the particles' mean form factor) is never zero, whatever
    the polydispersity and the scattering vector: no division by zero there. *)
Theorem C142_normalisation : forall q phi l, q <> 0 -> 0 < phi -> mixture l -> I0 q phi (map floor_sp l) <> RtoC 0.
Proof. intros q phi l Hq Hp Hm. destruct (mix_floor l Hm) as (A & B & D & E). apply I0_nz; assumption. Qed.
Print Assumptions C142_normalisation.

Example C142_mixture : mixture [mkSp (3 / 10) 200 (1 / 10); mkSp (7 / 10) 350 0].
Proof.
  split; [right; reflexivity|]. split.
  - intros k [<- | [<- | []]]; cbn [sp_c sp_d]; lra.
  - exists (mkSp (3 / 10) 200 (1 / 10)). split; [now left|cbn; lra].
Qed.

(** C143: the transform f0 the structure factor is built from is the
    characteristic function of a size distribution of mean d and relative
    width w: it solves the equation of the Schulz (gamma) law,
    (1 + i q d w^2) f0'(q) = - i d f0(q), f0(0) = 1; f1 and f2 are its first
    two derivatives (over -i d), so they are the moments weighted with the size,
    1 and 1 + w^2 at q = 0.  ([floor_sp k] is the species with the raised width
    [width k], the one the code computes with.) *)
Theorem C143_schulz : forall k0 q, let k := floor_sp k0 in
  sp_f0 0 k = RtoC 1 /\
  exists re' im', derivable_pt_lim (fun u => fst (sp_f0 u k)) q re' /\ derivable_pt_lim (fun u => snd (sp_f0 u k)) q im' /\
    Cmult (1, q * sp_d k * width k0 ^ 2) (re', im') = Cmult (0, - sp_d k) (sp_f0 q k).
Proof.
  intros k0 q k. destruct (moments k (floor_pos k0) q) as ((M0 & _) & (D1 & D2) & _). split; [exact M0|].
  exists (sp_d k * snd (sp_f1 q k)), (- sp_d k * fst (sp_f1 q k)). split; [exact D1|]. split; [exact D2|].
  destruct (orders_related k (floor_pos k0) q) as [E _]. cbn [sp_pdi k floor_sp] in E. rewrite width_floor in E. rewrite <- E.
  destruct (sp_f1 q k) as [a b]. unfold Cmult. cbn [fst snd]. apply (f_equal2 pair); ring.
Qed.
Print Assumptions C143_schulz.
Theorem C143_moments : forall k0 q, let k := floor_sp k0 in
  sp_f1 0 k = RtoC 1 /\ sp_f2 0 k = RtoC (1 + width k0 ^ 2) /\
  derivable_pt_lim (fun u => fst (sp_f0 u k)) q (sp_d k * snd (sp_f1 q k)) /\
  derivable_pt_lim (fun u => snd (sp_f0 u k)) q (- sp_d k * fst (sp_f1 q k)) /\
  derivable_pt_lim (fun u => fst (sp_f1 u k)) q (sp_d k * snd (sp_f2 q k)) /\
  derivable_pt_lim (fun u => snd (sp_f1 u k)) q (- sp_d k * fst (sp_f2 q k)) /\
  sp_f0i q k = sp_f0 (- q) k /\ sp_f1i q k = sp_f1 (- q) k /\ sp_f2i q k = sp_f2 (- q) k.
Proof.
  intros k0 q k. destruct (moments k (floor_pos k0) q) as ((M0 & M1 & M2) & (D1 & D2) & (D3 & D4)). cbn [sp_pdi k floor_sp] in M2. rewrite width_floor in M2.
  destruct (inverse_conj k q) as (I1 & I2 & I3).
  split; [exact M1|]. split; [exact M2|]. split; [exact D1|]. split; [exact D2|]. split; [exact D3|]. split; [exact D4|].
  split; [exact I1|]. split; [exact I2|exact I3].
Qed.
Print Assumptions C143_moments.

(** The four size averages the direct-correlation matrix is made of stay
    bounded at all scattering vectors (they are differences that cancel to second
    and third order at q = 0), by moments of the distribution. *)
Theorem C143_bounded : forall k0 q, 0 < sp_d k0 -> 0 < q -> let k := floor_sp k0 in
  let m2 := 1 + width k0 ^ 2 in let m3 := m2 * (1 + 2 * width k0 ^ 2) in let m4 := m3 * (1 + 3 * width k0 ^ 2) in
  Cmod (sp_fa q k) <= m3 / 12 /\ Cmod (sp_fb q k) <= m4 / 12 /\
  Cmod (sp_fc q k) <= m2 / 2 /\ Cmod (sp_fd q k) <= m3 / 2.
Proof.
  intros k0 q Hd Hq. cbv zeta. rewrite <- width_floor. pose proof (floor_pos k0) as Hp. change (pdi_floor (sp_pdi k0)) with (sp_pdi (floor_sp k0)).
  split; [now apply fa_bound|]. split; [now apply fb_bound|]. split; [now apply fc_bound|now apply fd_bound].
Qed.
Print Assumptions C143_bounded.

(** The two places where the same average is computed agree: the first column
    of the matrix is -pi/(6(1-phi)) times the alpha transforms. *)
Theorem C143_consistent : forall q phi l, q <> 0 -> 0 < phi < 1 -> (forall k, In k l -> 0 < sp_d k) ->
  F11 q phi l = Cmult (RtoC (- (PI / (6 * (1 - phi))))) (Ialpha1 q phi l) /\
  F21 q phi l = Cmult (RtoC (- (PI / (6 * (1 - phi))))) (Ialpha2 q phi l).
Proof.
  intros q phi l Hq Hp Hd. pose proof (s_neq q Hq) as Hs. assert (HD : RtoC (1 - phi) <> RtoC 0) by nz.
  assert (E24 : RtoC 24 = Cmult (RtoC 6) (RtoC 4)) by (rewrite <- RtoC_mult; f_equal; lra).
  assert (E4 : RtoC 4 = Cmult (RtoC 2) (RtoC 2)) by (rewrite <- RtoC_mult; f_equal; lra).
  assert (Hpi : RtoC (- (PI / (6 * (1 - phi)))) = Copp (Cdiv (RtoC PI) (Cmult (RtoC 6) (RtoC (1 - phi))))).
  { rewrite RtoC_opp, RtoC_div, RtoC_mult; [reflexivity|nra]. }
  assert (N6 : RtoC 6 <> RtoC 0) by nz. assert (N2 : RtoC 2 <> RtoC 0) by nz.
  split.
  - unfold F11, Ialpha1. rewrite (Csum_scale species (- (RtoC PI / (6 * RtoC (1 - phi))) * (24 / ((0%R, q) * (0%R, q) * (0%R, q))))%C
      (fun k => (sp_c k * poly_rho phi l * (- (1 / 2) * (1 - sp_f0 q k) + sp_x q k / 4 * (1 + sp_f1 q k)))%C)).
    + rewrite Hpi. ring.
    + intros k Hk. specialize (Hd k Hk). assert (HdC : RtoC (sp_d k) <> RtoC 0) by nz.
      unfold sp_fa, sp_x. rewrite E24, E4. field. repeat split; assumption.
  - unfold F21, Ialpha2. rewrite (Csum_scale species (- (RtoC PI / (6 * RtoC (1 - phi))) * (24 / ((0%R, q) * (0%R, q) * (0%R, q))))%C
      (fun k => (sp_c k * poly_rho phi l * (- (sp_d k / 2) * (1 - sp_f1 q k) + (0%R, q) * (sp_d k * sp_d k) / 4 * (sp_t2 k + sp_f2 q k)))%C)).
    + rewrite Hpi. ring.
    + intros k Hk. specialize (Hd k Hk). assert (HdC : RtoC (sp_d k) <> RtoC 0) by nz.
      unfold sp_fb, sp_x. rewrite E24, E4. field. repeat split; assumption.
Qed.
Print Assumptions C143_consistent.
