(** Lemmas for the bulk calculation: the indices of a sphere run, positivity of
    the bulk coefficients. *)
From Coq Require Import Lra Lia.
From Verif Require Import Num Spec Spec_detector Spec_events Spec_bulk Spec_bulk2 M_init M_montecarlo M_detector M_simulation
  M_phase_func_sphere L_num L_exits L_slots L_outcomes L_simulation L_bulk L_bulk2 Properties_bulk.
Open Scope R_scope.

Lemma outcome_indices fuel angs steps P d n T o :
  valid_params P n -> p_gonio P = None -> (forall i, (i < n)%nat -> wf_len (T i)) ->
  calc_refl_trans fuel angs steps P false d (map T (seq 0 n)) = Ok (Some o) ->
  length (o_refl_i o) = n /\ length (o_trans_i o) = n
  /\ one_exit n (fun i => nth i (o_refl_i o) 0%nat) (fun i => nth i (o_trans_i o) 0%nat).
Proof.
  intros Hv Hgo HT H.
  assert (E : exists q di, o_refl_i o = q_refl_i (sl_pass P false n T q di) /\ o_trans_i o = q_trans_i (sl_pass P false n T q di)).
  { destruct fuel as [|fuel]; [discriminate|]. cbn [calc_refl_trans] in H.
    destruct (first_pass P false (map T (seq 0 n))) as [[q|]|e] eqn:Eq; [|discriminate|discriminate].
    cbn [bind] in H. destruct (first_pass_slots P false n T q (valid_good _ _ Hv) Eq) as (inc & di & _ & _ & -> & _).
    exists inc, di.
    destruct (p_run P && Nat.ltb d (p_maxdepth P) && Rltb (p_maxstuck P) _).
    - destruct (rerun_all _ _ _ _ _ _) as [trs'|e]; [|discriminate]. cbn [bind] in H.
      destruct (calc_refl_trans fuel _ _ _ _ _ _) as [[o'|]|e]; [|discriminate|discriminate].
      cbn [bind] in H. injection H as <-. split; reflexivity.
    - destruct (distribute_ambig_traj_weights _ _ _ _ _ _ _ _ _ _ _ _) as [[[[r t] rp] tp]|]; [|discriminate].
      injection H as <-. split; reflexivity. }
  destruct E as (q & di & -> & ->). cbn [q_refl_i q_trans_i sl_pass].
  rewrite !map_length, seq_length. split; [reflexivity|]. split; [reflexivity|].
  intros i Hi.
  assert (N : forall f : nat -> nat, nth i (map f (seq 0 n)) 0%nat = f i).
  { intros f. rewrite (nth_indep _ 0%nat (f 0%nat)) by (rewrite map_length, seq_length; exact Hi).
    rewrite (map_nth f), seq_nth by exact Hi. reflexivity. }
  rewrite !N. unfold sl_ri, sl_ti, sl_ev. rewrite Hgo.
  destruct (find_valid_exits (sl_nt P) (p_nmedium P) (p_thickness P) (p_zlow P) (p_boundary P) (T i)) as [[ps ng] ti] eqn:Ee.
  destruct (trajectory_outcome _ _ _ _ _ _ _ _ _ (HT i Hi) Ee) as (r & tt & s & -> & Ho). cbn [i_refl i_trans].
  destruct Ho as [(_ & _ & -> & _)|[(j & _ & _ & _ & _ & -> & _)|(j & _ & _ & _ & -> & _)]]; auto.
Qed.
