(** Lemmas on the electric fields. *)
From Coq Require Import Lra Lia.
From Verif Require Import Num Spec L_num Spec_fields M_fields.
From Coquelicot Require Import Complex.
Open Scope R_scope.

Lemma C_eq : forall a b : C, fst a = fst b -> snd a = snd b -> a = b.
Proof. intros [a b] [c d] H1 H2. cbn in *. now subst. Qed.

Lemma field_eq : forall f g : field, fx f = fx g -> fy f = fy g -> fz f = fz g -> f = g.
Proof. intros [[a b] c] [[d e] g] H1 H2 H3. unfold fx, fy, fz in *. cbn in *. now subst. Qed.

(** ** Perpendicularity. *)
Lemma rot_dot : forall a b c x y z ct st cp sp,
  st * st + ct * ct = 1 -> sp * sp + cp * cp = 1 ->
  ((a * ct + c * st) * cp - b * sp) * ((x * ct + z * st) * cp - y * sp)
  + ((a * ct + c * st) * sp + b * cp) * ((x * ct + z * st) * sp + y * cp)
  + (- (a * st) + c * ct) * (- x * st + z * ct)
  = a * x + b * y + c * z.
Proof.
  intros a b c x y z ct st cp sp T P.
  set (U := a * ct + c * st). set (V := x * ct + z * st).
  transitivity ((U * V + b * y) * (sp * sp + cp * cp) + (- (a * st) + c * ct) * (- x * st + z * ct)); [ring|].
  rewrite P. unfold U, V.
  transitivity ((a * x + c * z) * (st * st + ct * ct) + b * y); [ring|]. rewrite T. ring.
Qed.

Lemma transverse_re_im : forall f v, transverse f v <->
  fst (fx f) * vx v + fst (fy f) * vy v + fst (fz f) * vz v = 0
  /\ snd (fx f) * vx v + snd (fy f) * vy v + snd (fz f) * vz v = 0.
Proof.
  intros [[[a a'] [b b']] [c c']] [[x y] z]. unfold transverse. cbn. split.
  - intro H. injection H as H1 H2. split; lra.
  - intros [H1 H2]. apply C_eq; cbn; lra.
Qed.

Lemma transverse_rot : forall f v t p,
  transverse f v -> transverse (rot_field (trig (t, p)) f) (scatter1 v t p).
Proof.
  intros [[[a a'] [b b']] [c c']] [[x y] z] t p H. apply transverse_re_im in H.
  apply transverse_re_im. cbn in *. destruct H as [H1 H2].
  pose proof (sin2_cos2 t) as T. pose proof (sin2_cos2 p) as P. unfold Rsqr in *.
  pose proof (rot_dot a b c x y z (cos t) (sin t) (cos p) (sin p) T P).
  pose proof (rot_dot a' b' c' x y z (cos t) (sin t) (cos p) (sin p) T P).
  split; lra.
Qed.

Lemma transverse_fzero : forall v, transverse fzero v.
Proof. intros [[x y] z]. apply transverse_re_im. cbn. split; lra. Qed.
Lemma transverse_vzero : forall f, transverse f vzero.
Proof. intros f. apply transverse_re_im. cbn. split; lra. Qed.

Lemma transverse_fmul : forall u f v, transverse f v -> transverse (fmul u f) v.
Proof.
  intros [u u'] [[[a a'] [b b']] [c c']] [[x y] z] H. apply transverse_re_im in H. apply transverse_re_im.
  cbn in *. destruct H as [H1 H2]. split.
  - transitivity (u * (a * x + b * y + c * z) - u' * (a' * x + b' * y + c' * z)); [ring|]. rewrite H1, H2. ring.
  - transitivity (u' * (a * x + b * y + c * z) + u * (a' * x + b' * y + c' * z)); [ring|]. rewrite H1, H2. ring.
Qed.

Lemma fdiv_fmul : forall f m, fdiv f m = fmul (Cinv (RtoC m)) f.
Proof. intros. reflexivity. Qed.

Lemma transverse_norm : forall f v, transverse f v -> transverse (fnormalize0 f) v.
Proof. intros f v H. unfold fnormalize0. destruct (Reqb _ _); rewrite fdiv_fmul; now apply transverse_fmul. Qed.

Lemma rotate_loop_transverse : forall angles rest k tail l ks,
  (forall f, In f tail -> transverse f k) ->
  rotate_loop (map trig angles) tail = Ok l -> scatter_loop k rest angles = Ok ks ->
  forall e, transverse (nth e l fzero) (nth e ks vzero).
Proof.
  induction angles as [|[t p] angles IH]; intros rest k tail l ks Hk Hl Hs e.
  - cbn in Hl. destruct tail; [|discriminate]. injection Hl as <-. destruct e; apply transverse_fzero.
  - cbn [map rotate_loop] in Hl. destruct tail as [|f tail]; [cbn in Hl; injection Hl as <-; destruct e; apply transverse_fzero|].
    cbn [map] in Hl.
    destruct (rotate_loop (map trig angles) (map (rot_field (trig (t, p))) tail)) as [l'|] eqn:El;
      cbn [bind] in Hl; [|discriminate].
    assert (l = rot_field (trig (t, p)) f :: l') as -> by (injection Hl as <-; reflexivity). clear Hl.
    destruct rest as [|r rest]; [cbn in Hs; injection Hs as <-; destruct e; apply transverse_vzero|].
    cbn [scatter_loop] in Hs. cbv zeta in Hs.
    destruct (scatter_loop (scatter1 k t p) rest angles) as [ks'|] eqn:Es; cbn [bind] in Hs; [|discriminate].
    assert (ks = scatter1 k t p :: ks') as -> by (injection Hs as <-; reflexivity). clear Hs.
    destruct e as [|e].
    + cbn [nth]. apply transverse_rot, Hk. now left.
    + cbn [nth]. eapply IH; [|exact El|exact Es].
      intros g Hg. apply in_map_iff in Hg. destruct Hg as (g0 & <- & Hg). apply transverse_rot, Hk. now right.
Qed.

Lemma jones_loop_z : forall tail amps e l, jones_loop amps e tail = Ok l -> map fz l = map fz tail.
Proof.
  induction tail as [|f t IH]; intros amps e l H; cbn in H; [injection H as <-; reflexivity|].
  destruct amps as [|s ss]; [discriminate|].
  destruct (jones_loop ss (jones_step s e) t) as [l'|] eqn:E; cbn in H; [|discriminate].
  injection H as <-. cbn. f_equal. now apply (IH ss (jones_step s e)).
Qed.

Lemma nth_map_norm : forall e l, nth e (map fnormalize0 l) fzero = fnormalize0 (nth e l fzero).
Proof.
  assert (H : fnormalize0 fzero = fzero).
  { unfold fnormalize0. destruct (Reqb _ _); apply field_eq; apply C_eq; cbn; unfold fx; cbn; ring. }
  intros e l. rewrite <- H at 1. now rewrite map_nth.
Qed.

Lemma nth_map2_fmul : forall us l e, (e < length us)%nat ->
  nth e (map2 fmul us l) fzero = fmul (nth e us (RtoC 1)) (nth e l fzero).
Proof.
  induction us as [|u us IH]; intros l e H; [cbn in H; lia|].
  destruct l as [|f l].
  - cbn [map2]. assert (Z : forall w, fmul w fzero = fzero).
    { intro w. apply field_eq; apply C_eq; cbn; ring. }
    destruct e; now rewrite !Z.
  - destruct e as [|e]; [reflexivity|]. cbn [map2 nth]. apply IH. cbn in H. lia.
Qed.
Lemma nth_map2_fmul_out : forall us l e, (length us <= e)%nat -> nth e (map2 fmul us l) fzero = fzero.
Proof.
  induction us as [|u us IH]; intros l e H; [now destruct e|].
  destruct l as [|f l]; [now destruct e|]. destruct e as [|e]; [cbn in H; lia|].
  cbn [map2 nth]. apply IH. cbn in H. lia.
Qed.
Lemma transverse_map2 : forall us l e v,
  transverse (nth e l fzero) v -> transverse (nth e (map2 fmul us l) fzero) v.
Proof.
  intros us l e v H. destruct (Nat.lt_ge_cases e (length us)) as [Hl|Hl].
  - rewrite nth_map2_fmul by exact Hl. now apply transverse_fmul.
  - rewrite nth_map2_fmul_out by exact Hl. apply transverse_fzero.
Qed.

Lemma column_transverse : forall k amps angles steps col rest fs ks,
  along_z col ->
  fields_column k amps (map trig angles) steps col = Ok fs ->
  scatter (ez :: rest) angles = Ok ks ->
  forall e, transverse (nth (S e) fs fzero) (nth e ks vzero).
Proof.
  intros k amps angles steps col rest fs ks Hz Hf Hs e. unfold fields_column in Hf.
  destruct col as [|f0 [|f1 tail]].
  - injection Hf as <-. cbn [nth]. apply transverse_fzero.
  - injection Hf as <-. cbn [map nth]. destruct e; apply transverse_fzero.
  - destruct (jones_loop amps (fx f0, fy f0) tail) as [t1|] eqn:E1; cbn [bind] in Hf; [|discriminate].
    destruct (rotate_loop (map trig angles) t1) as [t2|] eqn:E2; cbn [bind] in Hf; [|discriminate].
    assert (fs = map fnormalize0 (f0 :: map2 fmul (phase_factors k steps) (f1 :: t2))) as ->
      by (injection Hf as <-; reflexivity). clear Hf.
    rewrite nth_map_norm. apply transverse_norm. cbn [nth].
    apply transverse_map2.
    unfold scatter in Hs. destruct (scatter_loop ez rest angles) as [ks'|] eqn:Es; cbn [bind] in Hs; [|discriminate].
    assert (ks = ez :: ks') as -> by (injection Hs as <-; reflexivity). clear Hs.
    assert (Hez : forall f, fz f = RtoC 0 -> transverse f ez).
    { intros f H. apply transverse_re_im. rewrite H. cbn. split; ring. }
    destruct e as [|e].
    + cbn [nth]. apply Hez. exact (Hz 1%nat).
    + cbn [nth]. eapply rotate_loop_transverse; [|exact E2|exact Es].
      intros f Hin. apply Hez.
      assert (Hin' : In (fz f) (map fz tail)) by (rewrite <- (jones_loop_z _ _ _ _ E1); now apply in_map).
      apply in_map_iff in Hin'. destruct Hin' as (g & <- & Hg).
      destruct (In_nth _ _ fzero Hg) as (j & Hj & Hg').
      specialize (Hz (S (S j))). cbn [nth] in Hz. now rewrite Hg' in Hz.
Qed.

(** ** Normalisation. *)
Lemma fmag_sq : forall f, fmag f ^ 2 = strength f.
Proof.
  intro f. unfold fmag, strength. rewrite pow2_sqrt; [reflexivity|].
  pose proof (pow2_ge_0 (Cmod (fx f))). pose proof (pow2_ge_0 (Cmod (fy f))). pose proof (pow2_ge_0 (Cmod (fz f))). lra.
Qed.
Lemma fmag_pos : forall f, 0 <= fmag f.
Proof. intro. apply sqrt_pos. Qed.

Lemma strength_zero : forall f, strength f = 0 -> f = fzero.
Proof.
  intros f H. unfold strength in H.
  pose proof (pow2_ge_0 (Cmod (fx f))). pose proof (pow2_ge_0 (Cmod (fy f))). pose proof (pow2_ge_0 (Cmod (fz f))).
  assert (K : forall z, Cmod z ^ 2 = 0 -> z = RtoC 0).
  { intros z Hz. apply Cmod_eq_0. assert (Cmod z * Cmod z = 0) by (cbn in Hz; lra).
    apply Rmult_integral in H3. now destruct H3. }
  apply field_eq; apply K; lra.
Qed.

Lemma strength_fmul : forall u f, strength (fmul u f) = Cmod u ^ 2 * strength f.
Proof. intros u f. unfold strength, fmul, fx, fy, fz. cbn [fst snd]. rewrite !Cmod_mult. ring. Qed.

Lemma fnormalize0_unit : forall f, f <> fzero -> strength (fnormalize0 f) = 1.
Proof.
  intros f Hf. unfold fnormalize0. destruct (Reqb (fmag f) 0) eqn:E.
  - apply Reqb_true in E. exfalso. apply Hf, strength_zero. rewrite <- fmag_sq, E. ring.
  - apply Reqb_false in E. rewrite fdiv_fmul, strength_fmul, <- fmag_sq.
    pose proof (fmag_pos f). rewrite Cmod_inv by (intro K; apply E; injection K; auto). rewrite Cmod_R, Rabs_pos_eq by lra. field. exact E.
Qed.

Lemma fnormalize0_zero : fnormalize0 fzero = fzero.
Proof. unfold fnormalize0. destruct (Reqb _ _); apply field_eq; apply C_eq; cbn; unfold fx; cbn; ring. Qed.

Lemma fnormalize0_fmul : forall u f, Cmod u = 1 -> fnormalize0 (fmul u f) = fmul u (fnormalize0 f).
Proof.
  intros u f Hu.
  assert (M : fmag (fmul u f) = fmag f).
  { apply Rsqr_inj; try apply fmag_pos. rewrite !Rsqr_pow2, !fmag_sq, strength_fmul, Hu. ring. }
  unfold fnormalize0. rewrite M. destruct (Reqb _ _); rewrite !fdiv_fmul; apply field_eq; unfold fmul, fx, fy, fz; cbn [fst snd]; ring.
Qed.

Lemma expi_mod : forall x, Cmod (expi x) = 1.
Proof.
  intro x. unfold Cmod, expi. cbn [fst snd]. rewrite <- sqrt_1. f_equal.
  pose proof (sin2_cos2 x) as H. unfold Rsqr in H. cbn. lra.
Qed.

(** ** Rotations. *)
Lemma rot_field_parts : forall t p f,
  rot_field (trig (t, p)) f = of_parts (scatter1 (re_part f) t p) (scatter1 (im_part f) t p).
Proof.
  intros t p [[[a a'] [b b']] [c c']]. apply field_eq; apply C_eq; cbn; ring.
Qed.

Lemma turn_rot : forall angles t p f,
  turn_field angles (rot_field (trig (t, p)) f) = turn_field ((t, p) :: angles) f.
Proof. intros. unfold turn_field. rewrite rot_field_parts. cbn [turn fold_left fst snd]. reflexivity. Qed.

Lemma turn_nil : forall f, turn_field [] f = f.
Proof. intros [[[a a'] [b b']] [c c']]. reflexivity. Qed.

Lemma turn_map : forall angles f, turn_field angles f = fold_left (fun g a => rot_field (trig a) g) angles f.
Proof.
  induction angles as [|[t p] angles IH]; intro f; [apply turn_nil|].
  cbn [fold_left]. rewrite <- IH. symmetry. apply turn_rot.
Qed.

Lemma rotate_loop_nth : forall angles tail l, rotate_loop (map trig angles) tail = Ok l ->
  length l = length tail /\
  forall e, (e < length tail)%nat -> (e < length angles)%nat /\
    nth e l fzero = turn_field (firstn (S e) angles) (nth e tail fzero).
Proof.
  induction angles as [|[t p] angles IH]; intros tail l H.
  - cbn in H. destruct tail; [|discriminate]. injection H as <-. split; [reflexivity|]. intros e He. cbn in He. lia.
  - cbn [map rotate_loop] in H. destruct tail as [|f tail]; cbn [map] in H.
    + assert (l = []) as -> by (injection H as <-; reflexivity). split; [reflexivity|]. intros e He. cbn in He. lia.
    + destruct (rotate_loop (map trig angles) (map (rot_field (trig (t, p))) tail)) as [l'|] eqn:El; cbn [bind] in H; [|discriminate].
      assert (l = rot_field (trig (t, p)) f :: l') as -> by (injection H as <-; reflexivity). clear H.
      destruct (IH _ _ El) as [L N]. rewrite map_length in L, N. split; [cbn; now rewrite L|].
      intros [|e] He; cbn [length] in *.
      * split; [lia|]. cbn [nth firstn]. rewrite <- turn_rot, turn_nil. reflexivity.
      * destruct (N e ltac:(lia)) as [H1 H2]. split; [lia|]. cbn [nth]. rewrite H2.
        rewrite (nth_indep _ fzero (rot_field (trig (t, p)) fzero)) by (rewrite map_length; lia).
        rewrite map_nth, turn_rot. reflexivity.
Qed.

Lemma strength_rot : forall t p f, strength (rot_field (trig (t, p)) f) = strength f.
Proof.
  intros t p [[[a a'] [b b']] [c c']]. unfold strength.
  pose proof (sin2_cos2 t) as T. pose proof (sin2_cos2 p) as P. unfold Rsqr in *.
  assert (M : forall z, Cmod z ^ 2 = fst z * fst z + snd z * snd z).
  { intro z. unfold Cmod. rewrite pow2_sqrt; [ring|]. pose proof (pow2_ge_0 (fst z)). pose proof (pow2_ge_0 (snd z)). lra. }
  rewrite !M. cbn.
  pose proof (rot_dot a b c a b c (cos t) (sin t) (cos p) (sin p) T P) as H1.
  pose proof (rot_dot a' b' c' a' b' c' (cos t) (sin t) (cos p) (sin p) T P) as H2.
  lra.
Qed.

Lemma strength_turn : forall angles f, strength (turn_field angles f) = strength f.
Proof.
  intros angles f. rewrite turn_map. revert f. induction angles as [|[t p] angles IH]; intro f; [reflexivity|].
  cbn [fold_left]. rewrite IH. apply strength_rot.
Qed.

(** ** The amplitude matrices. *)
Fixpoint steps_all (ss : list amp4) (e : C * C) : C * C :=
  match ss with [] => e | s :: t => steps_all t (jones_step s e) end.

Lemma jones_loop_nth : forall tail amps e0 l, jones_loop amps e0 tail = Ok l ->
  length l = length tail /\
  forall e, (e < length tail)%nat -> (e < length amps)%nat /\
    nth e l fzero = ((fst (steps_all (firstn (S e) amps) e0), snd (steps_all (firstn (S e) amps) e0)),
                     fz (nth e tail fzero)).
Proof.
  induction tail as [|f tail IH]; intros amps e0 l H; cbn in H.
  - injection H as <-. split; [reflexivity|]. intros e He. cbn in He. lia.
  - destruct amps as [|s ss]; [discriminate|].
    destruct (jones_loop ss (jones_step s e0) tail) as [l'|] eqn:E; cbn [bind] in H; [|discriminate].
    match type of H with Ok ?x = _ => assert (l = x) as -> by (injection H as <-; reflexivity) end. clear H.
    destruct (IH _ _ _ E) as [L N]. split; [cbn; now rewrite L|].
    intros [|e] He.
    + cbn in He |- *. split; [lia|reflexivity].
    + cbn [length] in *. destruct (N e ltac:(lia)) as [H1 H2]. split; [lia|]. cbn [nth]. rewrite H2. reflexivity.
Qed.

Definition local (e : C * C) : field := (fst e, snd e, RtoC 0).

(** The whole column. *)
Lemma column_nth : forall k amps angles steps col fs,
  along_z col -> fields_column k amps (map trig angles) steps col = Ok fs ->
  length steps = pred (length col) ->
  length fs = length col
  /\ nth 0 fs fzero = fnormalize0 (nth 0 col fzero)
  /\ nth 1 fs fzero = fnormalize0 (fmul (nth 0 (phase_factors k steps) (RtoC 1)) (nth 1 col fzero))
  /\ forall e, (S (S e) < length col)%nat ->
       (e < length amps)%nat /\ (e < length angles)%nat /\
       nth (S (S e)) fs fzero
       = fnormalize0 (fmul (nth (S e) (phase_factors k steps) (RtoC 1))
           (turn_field (firstn (S e) angles)
              (local (steps_all (firstn (S e) amps) (fx (nth 0 col fzero), fy (nth 0 col fzero)))))).
Proof.
  intros k amps angles steps col fs Hz Hf Hlen. unfold fields_column in Hf.
  assert (Lp : length (phase_factors k steps) = length steps).
  { unfold phase_factors, cumsum. rewrite map_length. generalize 0. induction steps as [|s ss IHs] in |- *; intro a; [reflexivity|]. cbn. now rewrite IHs. }
  destruct col as [|f0 [|f1 tail]].
  - injection Hf as <-. cbn [length nth] in *. rewrite !fnormalize0_zero.
    repeat split; try lia. assert (Z : fmul (nth 0 (phase_factors k steps) (RtoC 1)) fzero = fzero) by (apply field_eq; apply C_eq; cbn; ring).
    rewrite Z. now rewrite fnormalize0_zero.
  - injection Hf as <-. cbn [length nth map] in *.
    repeat split; try lia. assert (Z : fmul (nth 0 (phase_factors k steps) (RtoC 1)) fzero = fzero) by (apply field_eq; apply C_eq; cbn; ring).
    rewrite Z. now rewrite fnormalize0_zero.
  - destruct (jones_loop amps (fx f0, fy f0) tail) as [t1|] eqn:E1; cbn [bind] in Hf; [|discriminate].
    destruct (rotate_loop (map trig angles) t1) as [t2|] eqn:E2; cbn [bind] in Hf; [|discriminate].
    assert (fs = map fnormalize0 (f0 :: map2 fmul (phase_factors k steps) (f1 :: t2))) as ->
      by (injection Hf as <-; reflexivity). clear Hf.
    destruct (jones_loop_nth _ _ _ _ E1) as [L1 N1]. destruct (rotate_loop_nth _ _ _ E2) as [L2 N2].
    cbn [length pred] in Hlen.
    assert (Lm : forall (us : list C) l, length (map2 fmul us l) = Nat.min (length us) (length l)).
    { induction us as [|u us IHu]; intros [|g l]; cbn; auto. }
    split; [|split; [|split]].
    + rewrite map_length. cbn [length]. rewrite Lm, Lp. cbn [length]. lia.
    + rewrite nth_map_norm. reflexivity.
    + rewrite nth_map_norm. cbn [nth]. rewrite nth_map2_fmul by lia. reflexivity.
    + intros e He. cbn [length] in He.
      destruct (N1 e ltac:(lia)) as [A1 B1]. destruct (N2 e ltac:(lia)) as [A2 B2].
      split; [exact A1|]. split; [exact A2|].
      rewrite nth_map_norm. cbn [nth]. rewrite nth_map2_fmul by lia. cbn [nth].
      rewrite B2, B1. unfold local.
      replace (fz (nth e tail fzero)) with (RtoC 0); [reflexivity|]. symmetry. exact (Hz (S (S e))).
Qed.

Lemma phase_nth : forall k steps e, (e < length steps)%nat ->
  nth e (phase_factors k steps) (RtoC 1) = expi (k * (k * total (firstn (S e) steps))).
Proof.
  intros k steps e He. unfold phase_factors, cumsum.
  assert (G : forall l a j, (j < length l)%nat -> nth j (cumsum_from a l) 0 = a + total (firstn (S j) l)).
  { induction l as [|s l IH]; intros a j Hj; [cbn in Hj; lia|]. destruct j as [|j].
    - cbn. ring.
    - cbn [cumsum_from nth]. rewrite IH by (cbn in Hj; lia). cbn [firstn total]. ring. }
  assert (L : forall l a, length (cumsum_from a l) = length l) by (induction l; intro a0; cbn; auto).
  rewrite (nth_indep _ _ (expi (k * (k * 0)))) by (rewrite map_length, L; exact He).
  rewrite (map_nth (fun c => expi (k * (k * c)))), G by exact He. now rewrite Rplus_0_l.
Qed.

(** ** All trajectories. *)
Lemma mapM_nth : forall {A B} (f : A -> result B) l out, mapM f l = Ok out ->
  length out = length l /\ forall i a b0, nth_error l i = Some a -> f a = Ok (nth i out b0).
Proof.
  intros A B f. induction l as [|a l IH]; intros out H; cbn in H.
  - injection H as <-. split; [reflexivity|]. intros [|i] a b0 Hi; discriminate.
  - destruct (f a) as [b|] eqn:E; cbn [bind] in H; [|discriminate].
    destruct (mapM f l) as [bs|] eqn:E2; cbn [bind] in H; [|discriminate].
    assert (out = b :: bs) as -> by (injection H as <-; reflexivity).
    destruct (IH _ eq_refl) as [L N]. split; [cbn; now rewrite L|].
    intros [|i] a' b0 Hi; cbn in Hi.
    + injection Hi as <-. exact E.
    + apply (N i a' b0 Hi).
Qed.

Lemma calc_fields_column : forall amp n lam trs fss angs i t,
  calc_fields amp n lam false trs = Ok (fss, angs) -> nth_error trs i = Some t ->
  fields_column (field_k n lam) (map (fun a => amp (fst a) (snd a)) (ft_angles t))
    (map trig (ft_angles t)) (ft_steps t) (ft_fields t) = Ok (nth i fss []).
Proof.
  intros amp n lam trs fss angs i t H Hi. unfold calc_fields in H. cbn [andb] in H.
  match type of H with bind (mapM ?f trs) _ = _ => destruct (mapM f trs) as [out|] eqn:E end; cbn [bind] in H; [|discriminate].
  assert (fss = out) as -> by (injection H; auto).
  destruct (mapM_nth _ _ _ E) as [_ N]. now apply (N i t []).
Qed.

Lemma init_fields_spec : forall coherent polarized nevents ux uy,
  exists f, init_fields coherent polarized (S nevents) ux uy = Ok (Some (f :: f :: repeat fzero nevents))
    /\ strength f = 1 /\ fz f = RtoC 0
    /\ (polarized = true -> fy f = RtoC 0)
    /\ (polarized = false -> Cmod (fx f) = Cmod (fy f))
    /\ (coherent = true -> snd (fx f) = 0 /\ snd (fy f) = 0 /\ 0 < fst (fx f))
    /\ (coherent = false -> polarized = true -> fx f = (cos (2 * PI * ux), sin (2 * PI * ux))).
Proof.
  intros coherent polarized nevents ux uy. unfold init_fields.
  set (px := if coherent then 0 else ux * 2 * PI). set (py := if coherent then 0 else uy * 2 * PI).
  set (f0 := (expi px, if polarized then RtoC 0 else expi py, RtoC 0) : field). cbv zeta.
  assert (M : fmag f0 = if polarized then 1 else sqrt 2).
  { unfold fmag, f0, fx, fy, fz. cbn [fst snd]. destruct polarized.
    - rewrite expi_mod, !Cmod_0. replace (1 ^ 2 + 0 ^ 2 + 0 ^ 2) with 1 by ring. apply sqrt_1.
    - rewrite !expi_mod, Cmod_0. f_equal. ring. }
  pose proof (sqrt_lt_R0 2 ltac:(lra)) as S2.
  assert (Mp : 0 < fmag f0) by (rewrite M; destruct polarized; lra).
  unfold fnormalize. rewrite (proj2 (Reqb_false (fmag f0) 0)) by lra.
  assert (Z : Cdiv (RtoC 0) (RtoC (fmag f0)) = RtoC 0) by (unfold Cdiv; apply Cmult_0_l).
  assert (E : (fx (fdiv f0 (fmag f0)), fy (fdiv f0 (fmag f0)), RtoC 0) = fdiv f0 (fmag f0)).
  { apply field_eq; try reflexivity. exact (eq_sym Z). }
  rewrite E. exists (fdiv f0 (fmag f0)). split; [reflexivity|].
  assert (Hu : strength (fdiv f0 (fmag f0)) = 1).
  { assert (N : fnormalize0 f0 = fdiv f0 (fmag f0)) by (unfold fnormalize0; now rewrite (proj2 (Reqb_false (fmag f0) 0)) by lra).
    rewrite <- N. apply fnormalize0_unit. intro K. rewrite K in Mp. unfold fmag, fzero, fx, fy, fz in Mp. cbn [fst snd] in Mp. rewrite !Cmod_0 in Mp.
    replace (0 ^ 2 + 0 ^ 2 + 0 ^ 2) with 0 in Mp by ring. rewrite sqrt_0 in Mp. lra. }
  split; [exact Hu|]. split; [exact Z|].
  split; [intros Hp; unfold f0 at 1; rewrite Hp; exact Z|].
  assert (Mz : RtoC (fmag f0) <> RtoC 0) by (intro K; injection K; lra).
  split; [intros Hp; change (Cmod (Cdiv (fx f0) (RtoC (fmag f0))) = Cmod (Cdiv (fy f0) (RtoC (fmag f0)))); rewrite !Cmod_div by exact Mz; unfold f0 at 1 3; unfold fx, fy; cbn [fst snd]; rewrite Hp; now rewrite !expi_mod|].
  split.
  - intros ->. unfold px, py in *. clear px py.
    assert (D : forall z : C, forall m, m <> 0 -> Cdiv z (RtoC m) = (fst z / m, snd z / m)).
    { intros [a b] m Hm. apply C_eq; cbn; field; exact Hm. }
    unfold fdiv, fx, fy. cbn [fst snd]. rewrite !D by lra.
    assert (P : 0 < / fmag f0) by now apply Rinv_0_lt_compat.
    set (m := fmag f0) in *. clearbody m. unfold f0. cbn [fst snd expi].
    destruct polarized; cbn [fst snd expi RtoC]; rewrite ?sin_0, ?cos_0; repeat split; unfold Rdiv; try ring; lra.
  - intros -> ->. unfold px in *. unfold fdiv, f0, fx in *. cbn [fst snd]. rewrite M.
    unfold expi. apply C_eq; cbn; replace (ux * 2 * PI) with (2 * PI * ux) by ring; field.
Qed.

Lemma unit_or_zero : forall amp n_sample wavelen use_tir trs fss angs i e,
  calc_fields amp n_sample wavelen use_tir trs = Ok (fss, angs) ->
  strength (nth e (nth i fss []) fzero) = 1 \/ nth e (nth i fss []) fzero = fzero.
Proof.
  intros amp n lam b trs fss angs i e H. unfold calc_fields in H.
  destruct (b && _)%bool; [discriminate|].
  match type of H with bind (mapM ?f trs) _ = _ => destruct (mapM f trs) as [out|] eqn:E end; cbn [bind] in H; [|discriminate].
  assert (fss = out) as -> by (injection H; auto). clear H.
  destruct (mapM_nth _ _ _ E) as [L N].
  destruct (nth_error trs i) as [t|] eqn:Ht.
  2:{ right. assert (length out <= i)%nat by (rewrite L; now apply nth_error_None).
      rewrite (nth_overflow out) by assumption. now destruct e. }
  specialize (N i t [] Ht). cbv beta in N. revert N. generalize (nth i out []). intros fs N.
  assert (K : forall l, strength (nth e (map fnormalize0 l) fzero) = 1 \/ nth e (map fnormalize0 l) fzero = fzero).
  { intro l. rewrite nth_map_norm. assert (D : nth e l fzero = fzero \/ nth e l fzero <> fzero) by apply Classical_Prop.classic.
    destruct D as [D|D]; [right; rewrite D; apply fnormalize0_zero|left; now apply fnormalize0_unit]. }
  unfold fields_column in N. destruct (ft_fields t) as [|f0 [|f1 tail]].
  - injection N as <-. right. now destruct e.
  - assert (map fnormalize0 [f0] = fs) as <- by (injection N; auto). apply K.
  - match type of N with bind ?x _ = _ => destruct x as [t1|] end; cbn [bind] in N; [|discriminate].
    match type of N with bind ?x _ = _ => destruct x as [t2|] end; cbn [bind] in N; [|discriminate].
    match type of N with Ok ?x = _ => assert (x = fs) as <- by (injection N; auto) end. apply K.
Qed.

Lemma steps_all_nonzero : forall (amps : list amp4) e0,
  (forall s, In s amps -> let '(S1, S2, S3, S4) := s in S1 <> RtoC 0 /\ S2 <> RtoC 0) ->
  e0 <> (RtoC 0, RtoC 0) -> steps_all amps e0 <> (RtoC 0, RtoC 0).
Proof.
  induction amps as [|[[[S1 S2] S3] S4] amps IH]; intros e0 H He; [exact He|].
  cbn [steps_all]. apply IH; [intros s Hs; apply H; now right|].
  destruct (H _ (or_introl eq_refl)) as [H1 H2]. destruct e0 as [a b]. cbn [jones_step fst snd].
  intro K. pose proof (f_equal fst K) as K1. pose proof (f_equal snd K) as K2. cbn [fst snd] in K1, K2.
  rewrite K1, Cmult_0_r, Cplus_0_l in K2.
  assert (b = RtoC 0) as ->.
  { destruct (Ceq_dec b (RtoC 0)) as [E|E]; [exact E|]. exfalso. exact (Cmult_neq_0 _ _ H1 E K2). }
  rewrite Cmult_0_r, Cplus_0_r in K1.
  destruct (Ceq_dec a (RtoC 0)) as [E|E]; [subst; now apply He|]. exact (Cmult_neq_0 _ _ H2 E K1).
Qed.

Lemma Cinv_nz : forall z, z <> RtoC 0 -> Cinv z <> RtoC 0.
Proof. intros z Hz K. pose proof (Cinv_r z Hz) as E. rewrite K, Cmult_0_r in E. injection E. lra. Qed.
Lemma in_firstn : forall {A} n (l : list A) x, In x (firstn n l) -> In x l.
Proof. intros A n l x H. rewrite <- (firstn_skipn n l). apply in_or_app. now left. Qed.

Lemma fnormalize0_scale : forall f, exists c, c <> RtoC 0 /\ fnormalize0 f = fmul c f.
Proof.
  intro f. unfold fnormalize0. destruct (Reqb (fmag f) 0) eqn:E; rewrite fdiv_fmul.
  - exists (Cinv (RtoC 1)). split; [|reflexivity]. apply Cinv_nz. intro K. injection K. lra.
  - apply Reqb_false in E. exists (Cinv (RtoC (fmag f))). split; [|reflexivity]. apply Cinv_nz. intro K. injection K. exact E.
Qed.
Lemma fmul_fmul : forall u v f, fmul u (fmul v f) = fmul (Cmult u v) f.
Proof. intros. apply field_eq; unfold fmul, fx, fy, fz; cbn [fst snd]; ring. Qed.
Lemma fmul_one : forall f, fmul (RtoC 1) f = f.
Proof. intros. apply field_eq; unfold fmul, fx, fy, fz; cbn [fst snd]; ring. Qed.
Lemma expi_nonzero : forall x, expi x <> RtoC 0.
Proof. intros x K. pose proof (expi_mod x) as H. rewrite K, Cmod_0 in H. lra. Qed.
Lemma fmul_nonzero : forall u f, u <> RtoC 0 -> f <> fzero -> fmul u f <> fzero.
Proof.
  intros u f Hu Hf K. apply Hf, strength_zero. pose proof (f_equal strength K) as E. rewrite strength_fmul in E.
  assert (Z : strength fzero = 0) by (unfold strength, fzero, fx, fy, fz; cbn [fst snd]; rewrite !Cmod_0; ring).
  rewrite Z in E. apply Rmult_integral in E. destruct E as [E|E]; [|exact E].
  exfalso. apply Hu, Cmod_eq_0. assert (Cmod u * Cmod u = 0) by (cbn in E; lra). apply Rmult_integral in H. now destruct H.
Qed.

Lemma all_unit : forall amp n_sample wavelen trs fss angs i t,
  nth_error trs i = Some t -> along_z (ft_fields t) ->
  length (ft_steps t) = pred (length (ft_fields t)) ->
  calc_fields amp n_sample wavelen false trs = Ok (fss, angs) ->
  nth 0 (ft_fields t) fzero <> fzero -> nth 1 (ft_fields t) fzero <> fzero ->
  (forall a, In a (ft_angles t) -> let '(S1, S2, S3, S4) := amp (fst a) (snd a) in
                                   S1 <> RtoC 0 /\ S2 <> RtoC 0) ->
  length (nth i fss []) = length (ft_fields t)
  /\ forall e, (e < length (ft_fields t))%nat -> strength (nth e (nth i fss []) fzero) = 1.
Proof.
  intros amp n lam trs fss angs i t Hi Hz Hl H H0 H1 Ha.
  destruct (column_nth _ _ _ _ _ _ Hz (calc_fields_column _ _ _ _ _ _ _ _ H Hi) Hl) as (L & N0 & N1 & N).
  split; [exact L|]. intros [|[|e]] He.
  - rewrite N0. now apply fnormalize0_unit.
  - rewrite N1. apply fnormalize0_unit. apply fmul_nonzero; [|exact H1].
    rewrite phase_nth by lia. apply expi_nonzero.
  - destruct (N e He) as (A1 & A2 & E). rewrite E. apply fnormalize0_unit.
    apply fmul_nonzero; [rewrite phase_nth by lia; apply expi_nonzero|].
    intro K. apply (f_equal strength) in K. rewrite strength_turn in K.
    assert (Z : strength fzero = 0) by (unfold strength, fzero, fx, fy, fz; cbn [fst snd]; rewrite !Cmod_0; ring).
    rewrite Z in K. apply strength_zero in K.
    revert K. set (ss := firstn (S e) (map _ _)). intro K.
    refine (steps_all_nonzero ss (fx (nth 0 (ft_fields t) fzero), fy (nth 0 (ft_fields t) fzero)) _ _ _).
    + intros s Hs. unfold ss in Hs. apply in_firstn, in_map_iff in Hs. destruct Hs as (a & <- & Hin). exact (Ha a Hin).
    + intro K2. apply H0. apply field_eq.
      * exact (f_equal fst K2).
      * exact (f_equal snd K2).
      * exact (Hz 0%nat).
    + unfold local in K. destruct (steps_all ss _) as [p q]. f_equal.
      * exact (f_equal fx K).
      * exact (f_equal fy K).
Qed.

Lemma steps_all_jones : forall amps e0,
  (forall s, In s amps -> let '(S1, S2, S3, S4) := s in S4 = RtoC 0) -> steps_all amps e0 = jones_all amps e0.
Proof.
  induction amps as [|[[[S1 S2] S3] S4] amps IH]; intros e0 H; [reflexivity|].
  cbn [steps_all jones_all]. rewrite IH by (intros s Hs; apply H; now right). f_equal.
  pose proof (H _ (or_introl eq_refl)) as E. cbn in E. subst S4. cbn [jones_step jones]. f_equal. now rewrite !Cmult_0_l.
Qed.

Lemma amplitude_partial : forall amp n_sample wavelen trs fss angs i t,
  nth_error trs i = Some t -> along_z (ft_fields t) ->
  length (ft_steps t) = pred (length (ft_fields t)) ->
  calc_fields amp n_sample wavelen false trs = Ok (fss, angs) ->
  (forall a, In a (ft_angles t) -> let '(S1, S2, S3, S4) := amp (fst a) (snd a) in S4 = RtoC 0) ->
  forall e, (S (S e) < length (ft_fields t))%nat ->
  let f0 := nth 0 (ft_fields t) fzero in
  let j := jones_all (map (fun a => amp (fst a) (snd a)) (firstn (S e) (ft_angles t))) (fx f0, fy f0) in
  exists c, c <> RtoC 0 /\
    nth (S (S e)) (nth i fss []) fzero
    = fmul c (turn_field (firstn (S e) (ft_angles t)) (fst j, snd j, RtoC 0)).
Proof.
  intros amp n lam trs fss angs i t Hi Hz Hl H Ha e He f0 j.
  destruct (column_nth _ _ _ _ _ _ Hz (calc_fields_column _ _ _ _ _ _ _ _ H Hi) Hl) as (L & N0 & N1 & N).
  destruct (N e He) as (A1 & A2 & E). rewrite E. fold f0.
  rewrite steps_all_jones.
  2:{ intros s Hs. apply in_firstn, in_map_iff in Hs. destruct Hs as (a & <- & Hin). exact (Ha a Hin). }
  rewrite firstn_map. fold j. unfold local.
  match goal with |- context [fnormalize0 ?x] => destruct (fnormalize0_scale x) as (c & Hc & Ec) end.
  rewrite Ec, fmul_fmul. eexists. split; [|reflexivity].
  apply Cmult_neq_0; [exact Hc|]. rewrite phase_nth by lia. apply expi_nonzero.
Qed.

Lemma Cmult_cancel : forall c a b : C, c <> RtoC 0 -> Cmult c a = Cmult c b -> a = b.
Proof. intros c a b Hc E. apply (f_equal (Cmult (Cinv c))) in E. now rewrite !Cmult_assoc, Cinv_l, !Cmult_1_l in E. Qed.

Lemma parallel_scale : forall c f g, c <> RtoC 0 -> parallel (fmul c f) g -> parallel f g.
Proof.
  intros c f g Hc (H1 & H2 & H3). unfold parallel, fmul in *.
  change (fx (Cmult (fx f) c, Cmult (fy f) c, Cmult (fz f) c)) with (Cmult (fx f) c) in *.
  change (fy (Cmult (fx f) c, Cmult (fy f) c, Cmult (fz f) c)) with (Cmult (fy f) c) in *.
  change (fz (Cmult (fx f) c, Cmult (fy f) c, Cmult (fz f) c)) with (Cmult (fz f) c) in *.
  assert (K : forall a b, Cmult c a = Cmult c b -> a = b).
  { intros a b E. apply (f_equal (Cmult (Cinv c))) in E. now rewrite !Cmult_assoc, Cinv_l, !Cmult_1_l in E. }
  repeat split; apply K.
  - transitivity (Cmult (Cmult (fx f) c) (fy g)); [ring|rewrite H1; ring].
  - transitivity (Cmult (Cmult (fy f) c) (fz g)); [ring|rewrite H2; ring].
  - transitivity (Cmult (Cmult (fz f) c) (fx g)); [ring|rewrite H3; ring].
Qed.

Lemma rot_zero : forall f, rot_field (trig (0, 0)) f = f.
Proof.
  intro f. unfold trig. cbn [fst snd]. rewrite !cos_0, !sin_0. unfold rot_field.
  apply field_eq; unfold fx, fy, fz; cbn [fst snd]; ring.
Qed.

Lemma amplitude_refuted : forall (a b : C) n_sample wavelen s0 s1,
  a <> RtoC 0 -> b <> RtoC 0 -> a <> RtoC 1 ->
  let x : field := (RtoC 1, RtoC 0, RtoC 0) in
  exists f0 f1 f2 angs,
    calc_fields (fun _ _ => (a, a, b, b)) n_sample wavelen false
      [mk_ft [(0, 0)] [s0; s1] [ez; ez] [x; x; fzero] []] = Ok ([[f0; f1; f2]], angs)
    /\ ~ parallel f2 (a, b, RtoC 0).
Proof.
  intros a b n lam s0 s1 Ha Hb H1 x.
  eexists _, _, _, _. split; [reflexivity|].
  match goal with |- ~ parallel (fnormalize0 ?y) _ => destruct (fnormalize0_scale y) as (c & Hc & Ec) end.
  rewrite Ec. clear Ec. intro P. apply parallel_scale in P; [|exact Hc].
  match type of P with parallel (fmul ?u _) _ => apply parallel_scale in P; [|apply expi_nonzero] end.
  rewrite rot_zero in P. destruct P as (P & _ & _). unfold fx, fy, x, jones_step in P. cbn [fst snd] in P.
  assert (E : Cmult (Cmult a b) a = Cmult (Cmult a b) (RtoC 1)).
  { transitivity (Cmult (Cplus (Cmult b (Cplus (Cmult a (RtoC 1)) (Cmult b (RtoC 0)))) (Cmult a (RtoC 0))) a); [ring|].
    rewrite <- P. ring. }
  assert (N : Cmult a b <> RtoC 0) by now apply Cmult_neq_0.
  apply Cmult_cancel in E; [contradiction|exact N].
Qed.

Lemma phase_law : forall amp n_sample wavelen t fs fs0 angs angs0,
  along_z (ft_fields t) -> length (ft_steps t) = pred (length (ft_fields t)) ->
  calc_fields amp n_sample wavelen false [t] = Ok ([fs], angs) ->
  calc_fields amp n_sample wavelen false
    [mk_ft (ft_angles t) (map (fun _ => 0) (ft_steps t)) (ft_dirs t) (ft_fields t) (ft_tir t)] = Ok ([fs0], angs0) ->
  let k := Rabs (2 * PI * n_sample / wavelen) in
  forall e, (e < length (ft_steps t))%nat ->
    nth (S e) fs fzero = fmul (expi (k ^ 2 * total (firstn (S e) (ft_steps t)))) (nth (S e) fs0 fzero).
Proof.
  intros amp n lam t fs fs0 angs angs0 Hz Hl H H' k e He.
  pose proof (calc_fields_column _ _ _ _ _ _ 0 _ H eq_refl) as K.
  pose proof (calc_fields_column _ _ _ _ _ _ 0 _ H' eq_refl) as K'. cbn [nth ft_angles ft_steps ft_fields] in K, K'.
  destruct (column_nth _ _ _ _ _ _ Hz K Hl) as (_ & _ & N1 & N).
  assert (Hl' : length (map (fun _ : R => 0) (ft_steps t)) = pred (length (ft_fields t))) by now rewrite map_length.
  destruct (column_nth _ _ _ _ _ _ Hz K' Hl') as (_ & _ & N1' & N').
  assert (Z : forall j, (j < length (ft_steps t))%nat ->
            nth j (phase_factors (field_k n lam) (map (fun _ => 0) (ft_steps t))) (RtoC 1) = RtoC 1).
  { intros j Hj. rewrite phase_nth by now rewrite map_length.
    assert (T : total (firstn (S j) (map (fun _ : R => 0) (ft_steps t))) = 0).
    { rewrite firstn_map. generalize (firstn (S j) (ft_steps t)). induction l as [|s l IH]; [reflexivity|]. cbn [map total]. rewrite IH. ring. }
    rewrite T, !Rmult_0_r. unfold expi. now rewrite cos_0, sin_0. }
  assert (P : forall j, (j < length (ft_steps t))%nat ->
            nth j (phase_factors (field_k n lam) (ft_steps t)) (RtoC 1) = expi (k ^ 2 * total (firstn (S j) (ft_steps t)))).
  { intros j Hj. rewrite phase_nth by exact Hj. unfold k, field_k. f_equal. ring. }
  destruct e as [|e].
  - rewrite N1, N1', P, Z, fmul_one by lia. rewrite fnormalize0_fmul by apply expi_mod. reflexivity.
  - destruct (N e ltac:(lia)) as (_ & _ & ->). destruct (N' e ltac:(lia)) as (_ & _ & ->).
    rewrite P, Z, fmul_one by lia. rewrite fnormalize0_fmul by apply expi_mod. reflexivity.
Qed.

Lemma expi_eq : forall a b, expi a = expi b <-> exists m : Z, a = b + 2 * PI * IZR m.
Proof.
  intros a b. unfold expi. split.
  - intro H. assert (Hc : cos a = cos b) by (injection H; auto). assert (Hs : sin a = sin b) by (injection H; auto).
    assert (E : cos (a - b) = 1). { rewrite cos_minus, Hc, Hs. pose proof (sin2_cos2 b) as T. unfold Rsqr in T. lra. }
    replace (a - b) with (2 * ((a - b) / 2)) in E by field.
    rewrite cos_2a_sin in E.
    assert (S0 : sin ((a - b) / 2) = 0).
    { assert (sin ((a - b) / 2) * sin ((a - b) / 2) = 0) by lra. apply Rmult_integral in H0. now destruct H0. }
    destruct (sin_eq_0_0 _ S0) as (m & Hm). exists m. lra.
  - intros (m & ->). f_equal.
    + rewrite cos_plus. replace (2 * PI * IZR m) with (2 * (IZR m * PI)) by ring.
      rewrite cos_2a_sin, sin_2a, (sin_eq_0_1 (IZR m * PI)) by now exists m. ring.
    + rewrite sin_plus. replace (2 * PI * IZR m) with (2 * (IZR m * PI)) by ring.
      rewrite cos_2a_sin, sin_2a, (sin_eq_0_1 (IZR m * PI)) by now exists m. ring.
Qed.

Lemma phase_refuted : forall n_sample wavelen L amp,
  let k := Rabs (2 * PI * n_sample / wavelen) in
  let x : field := (RtoC 1, RtoC 0, RtoC 0) in
  exists f1 angs,
    calc_fields amp n_sample wavelen false [mk_ft [] [L] [ez] [x; x] []] = Ok ([[x; f1]], angs)
    /\ (f1 = fmul (expi (k * L)) x <-> exists m : Z, k ^ 2 * L = k * L + 2 * PI * IZR m).
Proof.
  intros n lam L amp k x.
  assert (Sx : strength x = 1) by (unfold strength, x, fx, fy, fz; cbn [fst snd]; rewrite Cmod_1, Cmod_0; ring).
  assert (Nx : fnormalize0 x = x).
  { unfold fnormalize0.
    assert (fmag x = 1). { apply Rsqr_inj; [apply fmag_pos|lra|]. rewrite !Rsqr_pow2, fmag_sq, Sx. ring. }
    rewrite H. rewrite (proj2 (Reqb_false 1 0)) by lra. rewrite fdiv_fmul.
    assert (I : Cinv (RtoC 1) = RtoC 1) by (apply C_eq; cbn; field). rewrite I. apply fmul_one. }
  exists (fmul (expi (k ^ 2 * L)) x). eexists. split.
  - unfold calc_fields. cbn [andb mapM map ft_angles ft_steps ft_fields fields_column jones_loop rotate_loop bind].
    cbn [phase_factors cumsum cumsum_from map map2 bind]. rewrite fnormalize0_fmul by apply expi_mod. rewrite Nx.
    replace (expi (field_k n lam * (field_k n lam * (0 + L)))) with (expi (k ^ 2 * L)) by (unfold k, field_k; f_equal; ring).
    reflexivity.
  - rewrite <- expi_eq. split.
    + intro H. apply (f_equal fx) in H. unfold fmul, x, fx in H. cbn [fst snd] in H. now rewrite !Cmult_1_l in H.
    + intros ->. reflexivity.
Qed.

(** ** Total internal reflection. *)
Lemma argmax_padded_never : forall b, never_true b -> argmax_padded b = 0%nat.
Proof.
  intros b H. assert (M : max_list (map b2n b) = 0%nat).
  { induction b as [|x b IH]; [reflexivity|]. cbn. pose proof (H 0%nat) as H0. cbn in H0. subst x. cbn.
    apply IH. intro j. exact (H (S j)). }
  unfold argmax_padded, argmax. cbn [max_list]. rewrite M. reflexivity.
Qed.

Lemma tir_angle_never : forall t, never_true (ft_tir t) -> tir_angle t = 0.
Proof.
  intros t H. unfold tir_angle. rewrite argmax_padded_never by exact H. cbn. rewrite acos_0. lra.
Qed.

Lemma overwrite_length : forall rows th l, length (overwrite_rows rows th l) = length l.
Proof. intros. unfold overwrite_rows. rewrite map_length, combine_length, seq_length. lia. Qed.

Lemma overwrite_nth : forall rows th l r ct st cp sp, (r < length l)%nat ->
  nth r l (0, 0, 0, 0) = (ct, st, cp, sp) ->
  nth r (overwrite_rows rows th l) (0, 0, 0, 0)
  = if existsb (Nat.eqb r) rows then (cos th, sin th, cp, sp) else (ct, st, cp, sp).
Proof.
  intros rows th l r ct st cp sp Hr E. unfold overwrite_rows.
  set (F := fun ia : nat * ang4 => _).
  rewrite (nth_indep _ _ (F (0%nat, (0, 0, 0, 0)))) by (rewrite map_length, combine_length, seq_length, Nat.min_id; exact Hr).
  rewrite map_nth, combine_nth by apply seq_length. rewrite seq_nth by exact Hr. rewrite E. reflexivity.
Qed.

Lemma nth_map_error : forall {A B} (f : A -> B) l j d,
  nth j (map f l) d = match nth_error l j with Some t => f t | None => d end.
Proof. intros A B f l. induction l as [|a l IH]; intros [|j] d; cbn; auto. Qed.

Lemma calc_fields_tir : forall amp n lam trs fss angs j u,
  calc_fields amp n lam true trs = Ok (fss, angs) -> nth_error trs j = Some u ->
  nth j angs [] = overwrite_rows (map tir_row trs) (tir_angle u) (map trig (ft_angles u))
  /\ (forall t, In t trs -> (tir_row t < length (ft_angles u))%nat).
Proof.
  intros amp n lam trs fss angs j u H Hj. unfold calc_fields in H. cbn [andb] in H.
  destruct (existsb _ trs) eqn:E; [discriminate|].
  match type of H with bind (mapM ?f trs) _ = _ => destruct (mapM f trs) as [out|] end; cbn [bind] in H; [|discriminate].
  match type of H with Ok (_, ?x) = _ => assert (angs = x) as -> by (injection H; auto) end. clear H. split.
  - rewrite nth_map_error, Hj. reflexivity.
  - intros t Ht. assert (F : existsb (fun r => Nat.leb (length (ft_angles u)) r) (map tir_row trs) = false).
    { destruct (existsb (fun r => Nat.leb (length (ft_angles u)) r) (map tir_row trs)) eqn:F; [|reflexivity].
      rewrite <- E. symmetry. apply existsb_exists. exists u. split; [now apply nth_error_In in Hj|exact F]. }
    destruct (Nat.lt_ge_cases (tir_row t) (length (ft_angles u))) as [L|L]; [exact L|].
    assert (X : existsb (fun r => Nat.leb (length (ft_angles u)) r) (map tir_row trs) = true).
    { apply existsb_exists. exists (tir_row t). split; [now apply in_map|now apply Nat.leb_le]. }
    rewrite X in F. discriminate.
Qed.

Lemma cross_talk : forall amp n_sample wavelen trs fss angs i j t u r,
  calc_fields amp n_sample wavelen true trs = Ok (fss, angs) ->
  nth_error trs i = Some t -> nth_error trs j = Some u ->
  never_true (ft_tir u) -> argmax_padded (ft_tir t) = S (S r) ->
  exists cp sp, nth r (nth j angs []) (0, 0, 0, 0) = (1, 0, cp, sp).
Proof.
  intros amp n lam trs fss angs i j t u r H Hi Hj Hu Ht.
  destruct (calc_fields_tir _ _ _ _ _ _ _ _ H Hj) as [E L].
  assert (Er : tir_row t = r) by (unfold tir_row; rewrite Ht; lia).
  assert (Hr : (r < length (map trig (ft_angles u)))%nat) by (rewrite map_length, <- Er; apply L; now apply nth_error_In in Hi).
  destruct (nth r (map trig (ft_angles u)) (0, 0, 0, 0)) as [[[ct st] cp] sp] eqn:N.
  exists cp, sp. rewrite E, (overwrite_nth _ _ _ _ _ _ _ _ Hr N), tir_angle_never by exact Hu.
  replace (existsb (Nat.eqb r) (map tir_row trs)) with true; [now rewrite cos_0, sin_0|].
  symmetry. apply existsb_exists. exists r. split; [|apply Nat.eqb_refl].
  rewrite <- Er. apply in_map. now apply nth_error_In in Hi.
Qed.

Lemma list_nth_eq : forall (l m : list ang4), length l = length m ->
  (forall r, (r < length l)%nat -> nth r l (0, 0, 0, 0) = nth r m (0, 0, 0, 0)) -> l = m.
Proof. intros l m H K. exact (nth_ext l m _ _ H K). Qed.

Lemma rotate_loop_ok : forall angs angs' tail, length angs = length angs' ->
  (exists l, rotate_loop angs tail = Ok l) -> exists l, rotate_loop angs' tail = Ok l.
Proof.
  assert (G : forall angs tail, (exists l, rotate_loop angs tail = Ok l) <-> (length tail <= length angs)%nat).
  { induction angs as [|a angs IH]; intro tail.
    - cbn. destruct tail; split; intro H; try (cbn in *; lia); try (destruct H; discriminate). now exists [].
    - cbn [rotate_loop]. destruct tail as [|f tail]; cbn [map length].
      + split; intro; [lia|now exists []].
      + specialize (IH (map (rot_field a) tail)). rewrite map_length in IH.
        destruct (rotate_loop angs (map (rot_field a) tail)) as [l|] eqn:E; cbn [bind].
        * split; intro; [|eexists; reflexivity]. assert (length tail <= length angs)%nat by (apply IH; now exists l). lia.
        * split; [intros [l H]; discriminate|]. intro Hl. destruct (proj2 IH ltac:(lia)) as [l H]. discriminate. }
  intros angs angs' tail L H. apply G. rewrite <- L. now apply G.
Qed.

Lemma column_ok : forall k amps angs angs' steps col, length angs = length angs' ->
  (exists l, fields_column k amps angs steps col = Ok l) -> exists l, fields_column k amps angs' steps col = Ok l.
Proof.
  intros k amps angs angs' steps col L (l & H). unfold fields_column in *.
  destruct col as [|f0 [|f1 tail]]; [eexists; reflexivity|eexists; reflexivity|].
  destruct (jones_loop amps (fx f0, fy f0) tail) as [t1|]; cbn [bind] in *; [|discriminate].
  destruct (rotate_loop angs t1) as [t2|] eqn:E; cbn [bind] in *; [|discriminate].
  destruct (rotate_loop_ok angs angs' t1 L (ex_intro _ _ E)) as (t3 & ->). cbn [bind]. eexists; reflexivity.
Qed.

Lemma mapM_ok : forall {A B} (f g : A -> result B) l,
  (forall a, In a l -> (exists b, f a = Ok b) -> exists b, g a = Ok b) ->
  (exists o, mapM f l = Ok o) -> exists o, mapM g l = Ok o.
Proof.
  intros A B f g. induction l as [|a l IH]; intros H (o & E); [now exists []|]. cbn in *.
  destruct (f a) as [b|] eqn:Fa; cbn [bind] in E; [|discriminate].
  destruct (mapM f l) as [bs|] eqn:Fl; cbn [bind] in E; [|discriminate].
  destruct (H a (or_introl eq_refl) (ex_intro _ _ Fa)) as (b' & ->).
  destruct (IH (fun x Hx => H x (or_intror Hx)) (ex_intro _ _ eq_refl)) as (bs' & ->). cbn. eexists; reflexivity.
Qed.

Lemma no_tir : forall amp n_sample wavelen trs,
  (forall t, In t trs -> never_true (ft_tir t) /\ ft_angles t <> []) ->
  forall fss angs, calc_fields amp n_sample wavelen true trs = Ok (fss, angs) ->
  forall i t th ph rest, nth_error trs i = Some t -> ft_angles t = (th, ph) :: rest ->
  nth i angs [] = (1, 0, cos ph, sin ph) :: map trig rest
  /\ exists fss' angs',
       calc_fields amp n_sample wavelen false trs = Ok (fss', angs')
       /\ nth i angs' [] = (cos th, sin th, cos ph, sin ph) :: map trig rest.
Proof.
  intros amp n lam trs Hn fss angs H i t th ph rest Hi Ht. split.
  - destruct (calc_fields_tir _ _ _ _ _ _ _ _ H Hi) as [E _].
    assert (Hin : In t trs) by now apply nth_error_In in Hi.
    rewrite E. apply list_nth_eq.
    + rewrite overwrite_length, Ht. cbn. reflexivity.
    + intros r Hr. rewrite overwrite_length in Hr.
      assert (Rz : forall x, In x (map tir_row trs) -> x = 0%nat).
      { intros x Hx. apply in_map_iff in Hx. destruct Hx as (u & <- & Hu). unfold tir_row.
        rewrite argmax_padded_never by apply (Hn u Hu). reflexivity. }
      destruct (nth r (map trig (ft_angles t)) (0, 0, 0, 0)) as [[[ct st] cp] sp] eqn:N.
      rewrite (overwrite_nth _ _ _ _ _ _ _ _ Hr N), tir_angle_never by apply (Hn t Hin).
      rewrite Ht in N. destruct r as [|r].
      * replace (existsb (Nat.eqb 0) (map tir_row trs)) with true.
        -- rewrite cos_0, sin_0. cbn in N |- *. injection N as <- <- <- <-. reflexivity.
        -- symmetry. apply existsb_exists. exists 0%nat. split; [|reflexivity].
           rewrite <- (Rz (tir_row t)) at 1; [|now apply in_map]. now apply in_map.
      * replace (existsb (Nat.eqb (S r)) (map tir_row trs)) with false; [exact (eq_sym N)|].
        symmetry. destruct (existsb (Nat.eqb (S r)) (map tir_row trs)) eqn:X; [|reflexivity].
        apply existsb_exists in X. destruct X as (x & Hx & Q). apply Nat.eqb_eq in Q. rewrite (Rz x Hx) in Q. discriminate.
  - unfold calc_fields in *. cbn [andb] in *.
    destruct (existsb _ trs); [discriminate|].
    match type of H with bind (mapM ?f trs) _ = _ => destruct (mapM f trs) as [out|] eqn:E end; cbn [bind] in H; [|discriminate].
    match goal with |- exists _ _, bind (mapM ?g trs) _ = _ /\ _ =>
      destruct (mapM_ok _ g trs (fun a Ha Hb => column_ok _ _ _ _ _ _ (eq_trans (overwrite_length _ _ _) eq_refl) Hb) (ex_intro _ _ E)) as (o & Eo) end.
    rewrite Eo. cbn [bind]. eexists _, _. split; [reflexivity|].
    rewrite nth_map_error, Hi, Ht. reflexivity.
Qed.
