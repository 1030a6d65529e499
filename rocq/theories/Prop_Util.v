(** Property theorems C16, C17: rainbow/util/heap.py and timer.py.
    [hexec es h] : h is a heap object reachable by the observed calls es (with the results the
    pops returned); [pm_replay], [pm_first], [intervals], [pending] are the specification (UtilSpec). *)
From Verif Require Import Base UtilModel UtilSpec UtilProofs.
From Coq Require Import Permutation.
Open Scope R_scope.

Theorem C16_pop_some : forall es h i h', hexec es h -> heap_pop h (Some i) h' -> pm_first (pm_replay es) i.
Proof.
  intros es h i h' He Hp. destruct (hexec_inv _ _ He) as [I A].
  destruct (pop_correct _ _ _ Hp I) as [_ [(v & H1 & H2) _]].
  exists v. rewrite <- A. split; auto. intros j w. rewrite <- A. apply H2.
Qed.
Print Assumptions C16_pop_some.
Theorem C16_pop_none : forall es h r h', hexec es h -> heap_pop h r h' ->
  (r = None <-> forall k, pm_replay es k = None).
Proof.
  intros es h r h' He Hp. destruct (hexec_inv _ _ He) as [I A]. destruct (pop_correct _ _ _ Hp I) as [_ P].
  destruct r as [i|]; split; intros H; try discriminate; auto.
  - destruct P as [(v & H1 & _) _]. rewrite A, H in H1. discriminate.
  - intros k. rewrite <- A. unfold heap_abs. destruct P as [-> _]. reflexivity.
Qed.
Print Assumptions C16_pop_none.
Theorem C16_bool : forall es h, hexec es h -> (heap_bool h = true <-> exists k v, pm_replay es k = Some v).
Proof.
  intros es h He. destruct (hexec_inv _ _ He) as [I A]. unfold heap_bool. rewrite Nat.ltb_lt, dict_nonempty. split.
  - intros (k & v & E). exists k. rewrite <- A. unfold heap_abs. rewrite E. cbn; eauto.
  - intros (k & v & E). rewrite <- A in E. unfold heap_abs in E. destruct (dict_get _ k) eqn:D; [eauto|discriminate].
Qed.
Print Assumptions C16_bool.
Theorem C16_pop_terminates : forall h, exists r h', heap_pop h r h'.
Proof. exact pop_total. Qed.
Print Assumptions C16_pop_terminates.
(** a stale entry: 5 is pushed with 3, updated to 9; 6 has value 4; pop gives 6, then 5, then None *)
Definition C16_ex : list hevent :=
  [EPush 5 (mkO 0 3); EPush 6 (mkO 1 4); EUpdate 5 (mkO 2 9); EPop (Some 6%Z); EPop (Some 5%Z); EPop None].
Example C16_nonvacuous : exists h, hexec C16_ex h.
Proof.
  exists (mkHeap [] []). unfold C16_ex.
  change (hexec ((((([] ++ [EPush 5 (mkO 0 3)]) ++ [EPush 6 (mkO 1 4)]) ++ [EUpdate 5 (mkO 2 9)]) ++ [EPop (Some 6%Z)]) ++ [EPop (Some 5%Z)] ++ [EPop None]) (mkHeap [] [])).
  rewrite app_assoc.
  apply hx_pop with (h := mkHeap [] []); [|apply pop_empty].
  eapply hx_pop. eapply hx_pop. apply hx_update. apply hx_push. apply hx_push. apply hx_init.
  - (* pop 6: (3,5) is stale *)
    eapply pop_stale with (a := (mkO 0 3, 5%Z)) (h' := [(mkO 2 9, 5%Z); (mkO 1 4, 6%Z)]).
    + split; [cbn; eapply perm_trans; [apply perm_skip, perm_swap|apply perm_swap]|].
      cbn. intros b [<-|[<-|[<-|[]]]]; unfold item_le; cbn; try (left; lra). right; split; [lra|lia].
    + reflexivity.
    + cbn. unfold obj_is. congruence.
    + apply pop_take with (a := (mkO 1 4, 6%Z)) (h' := [(mkO 2 9, 5%Z)]) (last := (mkO 1 4, 6%Z)).
      * split; [apply perm_swap|]. cbn. intros b [<-|[<-|[]]]; unfold item_le; cbn; try (left; lra). right; split; [lra|lia].
      * reflexivity.
      * reflexivity.
  - apply pop_take with (a := (mkO 2 9, 5%Z)) (last := (mkO 2 9, 5%Z)); [|reflexivity|reflexivity].
    split; [reflexivity|]. cbn. intros b [<-|[]]. right; split; [lra|lia].
Qed.

Theorem C17_elapsed_total : forall es,
  timer_elapsed (timer_run es) = hd 0 (intervals None [] es) /\
  timer_total (timer_run es) = rsum (intervals None [] es).
Proof. intros es. destruct (timer_run_gen es timer_init [] eq_refl eq_refl) as (H1 & H2 & _). exact (conj H1 H2). Qed.
Print Assumptions C17_elapsed_total.
Theorem C17_end_raises_iff_not_pending : forall es now,
  (timer_end (timer_run es) now = None <-> pending false es = false) /\
  (timer_end (timer_run es) now = None -> timer_run (es ++ [TEnd now]) = timer_run es).
Proof.
  intros es now. destruct (timer_run_gen es timer_init [] eq_refl eq_refl) as (_ & _ & H3).
  fold (timer_run es) in H3. cbn in H3. split.
  - rewrite <- H3. unfold timer_end. destruct (t_tic _); split; intros; discriminate || auto.
  - intros H. unfold timer_run. rewrite fold_left_app. cbn [fold_left timer_call]. fold (timer_run es). rewrite H. reflexivity.
Qed.
Print Assumptions C17_end_raises_iff_not_pending.
Example C17_nonvacuous :
  intervals None [] [TStart 1; TEnd 3; TEnd 4; TStart 5; TStart 6; TEnd 9] = [9 - 6; 3 - 1] /\
  pending false [TStart 1; TEnd 3] = false /\ pending false [TStart 1] = true.
Proof. repeat split. Qed.
