From Verif Require Import Base UtilModel UtilSpec.
From Coq Require Import Permutation Wf_nat.
Open Scope R_scope.

(** ** dict lemmas *)
Lemma dict_del_same d k : dict_get (dict_del d k) k = None.
Proof. induction d as [|[k' v] d IH]; cbn; auto. destruct (Z.eqb_spec k k'); auto. cbn. destruct (Z.eqb_spec k k'); [contradiction|auto]. Qed.
Lemma dict_del_other d k j : j <> k -> dict_get (dict_del d k) j = dict_get d j.
Proof.
  intros N. induction d as [|[k' v] d IH]; cbn; auto. destruct (Z.eqb_spec k k').
  - rewrite IH. destruct (Z.eqb_spec j k'); [lia|auto].
  - cbn. rewrite IH. auto.
Qed.
Lemma dict_set_get d k v j : dict_get (dict_set d k v) j = if Z.eqb j k then Some v else dict_get d j.
Proof. cbn. destruct (Z.eqb_spec j k); auto. apply dict_del_other; auto. Qed.
Lemma dict_nonempty d : (0 < length d)%nat <-> exists k v, dict_get d k = Some v.
Proof.
  destruct d as [|[k v] d]; cbn; split; intros H; try lia.
  - destruct H as (k & v & H); discriminate.
  - exists k, v. rewrite Z.eqb_refl. auto.
Qed.

(** ** invariant: finder entries sit in the heap and carry their own key *)
Definition heap_inv (h : heap) : Prop :=
  forall k it, dict_get (hp_finder h) k = Some it -> snd it = k /\ In it (hp_heap h).
Definition heap_abs (h : heap) : pmap := fun k => option_map (fun it => oval (fst it)) (dict_get (hp_finder h) k).

Lemma inv_init : heap_inv heap_init. Proof. intros k it H; discriminate. Qed.
Lemma inv_push h i v : heap_inv h -> heap_inv (heap_push h i v).
Proof.
  intros H k it E. unfold heap_push in *; cbn [hp_finder hp_heap] in *. rewrite dict_set_get in E.
  destruct (Z.eqb_spec k i).
  - injection E as <-; subst; cbn; auto.
  - apply H in E. destruct E; split; auto. right; auto.
Qed.
Lemma pop_correct h r h' : heap_pop h r h' -> heap_inv h ->
  heap_inv h' /\
  match r with
  | None => hp_finder h = [] /\ hp_finder h' = []
  | Some i => pm_first (heap_abs h) i /\ hp_finder h' = dict_del (hp_finder h) i
  end.
Proof.
  induction 1 as [f|h f a h' r s [Hp Hm] Hg Hpop IH|h f a h' last r s [Hp Hm] Hg Hn Hpop IH|h f a h' last [Hp Hm] Hg Hi]; intros Inv.
  - split; auto. destruct f as [|[k v] f]; auto. exfalso.
    destruct (Inv k v) as [_ Hin]; cbn; [rewrite Z.eqb_refl; auto|contradiction].
  - assert (I' : heap_inv (mkHeap h' f)).
    { intros k it E. cbn in *. destruct (Inv k it E) as [Hk Hin]. split; auto. cbn in Hin.
      apply (Permutation_in _ Hp) in Hin. destruct Hin as [->|]; auto. congruence. }
    destruct (IH I') as [J1 J2]. split; auto.
  - assert (I' : heap_inv (mkHeap h' f)).
    { intros k it E. cbn in *. destruct (Inv k it E) as [Hk Hin]. split; auto. cbn in Hin.
      apply (Permutation_in _ Hp) in Hin. destruct Hin as [->|]; auto. exfalso.
      apply Hn. rewrite Hk in Hg. rewrite E in Hg. injection Hg as ->. reflexivity. }
    destruct (IH I') as [J1 J2]. split; auto.
  - split; [|split; auto].
    + intros k it E. cbn in *. destruct (Z.eq_dec k (snd a)) as [->|N]; [rewrite dict_del_same in E; discriminate|].
      rewrite dict_del_other in E by auto. destruct (Inv k it E) as [Hk Hin]. split; auto. cbn in Hin.
      apply (Permutation_in _ Hp) in Hin. destruct Hin as [->|]; auto. congruence.
    + exists (oval (fst a)). split.
      * unfold heap_abs; cbn. rewrite Hg; cbn. rewrite <- Hi. auto.
      * intros j w E. unfold heap_abs in E; cbn in E. destruct (dict_get f j) as [it|] eqn:Ej; [|discriminate].
        injection E as <-. destruct (Inv j it Ej) as [<- Hin]. apply (Hm it Hin).
Qed.

Lemma hexec_inv es h : hexec es h -> heap_inv h /\ forall k, heap_abs h k = pm_replay es k.
Proof.
  unfold pm_replay. induction 1 as [|es h i v He [I A]|es h i v He [I A]|es h r h' He [I A] Hp].
  - split; [apply inv_init|]. reflexivity.
  - split; [apply inv_push; auto|]. intros k. rewrite fold_left_app; cbn [fold_left pm_step].
    unfold heap_abs, heap_push; cbn [hp_finder]. rewrite dict_set_get. destruct (Z.eqb_spec k i); [reflexivity|apply A].
  - split; [apply inv_push; auto|]. intros k. rewrite fold_left_app; cbn [fold_left pm_step].
    unfold heap_abs, heap_update, heap_push; cbn [hp_finder]. rewrite dict_set_get. destruct (Z.eqb_spec k i); [reflexivity|apply A].
  - destruct (pop_correct _ _ _ Hp I) as [I' P]. split; auto. intros k. rewrite fold_left_app; cbn [fold_left pm_step].
    destruct r as [i|].
    + destruct P as [_ P]. unfold heap_abs. rewrite P. destruct (Z.eqb_spec k i).
      * subst. rewrite dict_del_same. reflexivity.
      * rewrite dict_del_other by auto. apply A.
    + destruct P as [P1 P2]. rewrite <- A. unfold heap_abs. rewrite P1, P2. reflexivity.
Qed.

(** a pop always has an outcome *)
Lemma item_le_total a b : item_le a b \/ item_le b a.
Proof.
  unfold item_le. destruct (Rtotal_order (oval (fst a)) (oval (fst b))) as [|[E|]]; auto.
  destruct (Z.le_ge_cases (snd a) (snd b)); [left|right]; right; auto.
Qed.
Lemma item_le_trans a b c : item_le a b -> item_le b c -> item_le a c.
Proof. unfold item_le. intros [H|[H H']] [K|[K K']]; try (left; lra). right; split; [lra|lia]. Qed.
Lemma item_min (h : list item) : h <> [] -> exists a h', heappop h a h'.
Proof.
  induction h as [|x h IH]; [contradiction|]. intros _. destruct h as [|y h].
  - exists x, []. split; auto. intros b [->|[]]. right; split; [lra|lia].
  - destruct IH as (a & h' & Hp & Hm); [discriminate|]. destruct (item_le_total x a) as [L|L].
    + exists x, (y :: h). split; auto. intros b [->|Hb]; [right; split; [lra|lia]|].
      eapply item_le_trans; [exact L|]. apply Hm; auto.
    + exists a, (x :: h'). split.
      * rewrite Hp. apply perm_swap.
      * intros b [->|Hb]; auto.
Qed.
Lemma pop_total h : exists r h', heap_pop h r h'.
Proof.
  destruct h as [l f]. induction l as [l IH] using (induction_ltof1 _ (@length item)). unfold ltof in IH.
  destruct l as [|x l0] eqn:El; [do 2 eexists; apply pop_empty|].
  destruct (item_min (x :: l0)) as (a & h' & Hp); [discriminate|].
  assert (Hl : (length h' < length (x :: l0))%nat) by (destruct Hp as [Hp _]; rewrite (Permutation_length Hp); cbn; lia).
  destruct (IH h' Hl) as (r & s & Hr).
  destruct (dict_get f (snd a)) as [last|] eqn:E.
  - assert (D : {obj_is (fst a) (fst last)} + {~ obj_is (fst a) (fst last)}).
    { unfold obj_is. destruct (fst a) as [i1 v1], (fst last) as [i2 v2]. destruct (Nat.eq_dec i1 i2); [|right; congruence].
      destruct (Req_EM_T v1 v2); [left|right]; congruence. }
    destruct D.
    + do 2 eexists. eapply pop_take; eauto.
    + do 2 eexists. eapply pop_stale; eauto.
  - do 2 eexists. eapply pop_missing; eauto.
Qed.

(** ** timer *)
Lemma timer_run_gen es : forall t done,
  t_value t = hd 0 done -> t_acc t = rsum done ->
  let t' := fold_left (fun t e => fst (timer_call t e)) es t in
  t_value t' = hd 0 (intervals (t_tic t) done es) /\ t_acc t' = rsum (intervals (t_tic t) done es) /\
  (t_tic t' = None <-> pending (match t_tic t with Some _ => true | None => false end) es = false).
Proof.
  induction es as [|[now|now] es IH]; intros t done Hv Ha; cbn [fold_left intervals pending].
  - repeat split; auto; destruct (t_tic t); auto; discriminate.
  - apply (IH (timer_start t now)); auto.
  - cbn [timer_call]. unfold timer_end. destruct (t_tic t) as [tic|] eqn:E; cbn [fst].
    + apply (IH (mkT (now - tic) (t_acc t + (now - tic)) None (Some now))); cbn; auto. rewrite Ha; ring.
    + specialize (IH t done Hv Ha). rewrite E in IH. exact IH.
Qed.
