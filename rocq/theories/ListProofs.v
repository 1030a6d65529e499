(** Generic list facts: stable insertion sort, sequences of writes, NoDup of flat_map, map_opt. *)
From Verif Require Import Base BvhModel BvhProofs GridModel VolModel.
From Coq Require Import Permutation Sorted.
Open Scope nat_scope.

Section Sort.
  Context {A : Type} (leb : A -> A -> bool) (P : A -> Prop).
  Hypothesis tot : forall x y, P x -> P y -> leb x y = false -> leb y x = true.
  Hypothesis trans : forall x y z, P x -> P y -> P z -> leb x y = true -> leb y z = true -> leb x z = true.
  Lemma insert_perm x l : Permutation (x :: l) (insert leb x l).
  Proof. induction l as [|y l IH]; cbn; auto. destruct (leb x y); auto. rewrite perm_swap. auto. Qed.
  Lemma isort_perm l : Permutation l (isort leb l).
  Proof. induction l as [|x l IH]; cbn; auto. rewrite <- insert_perm. auto. Qed.
  Lemma insert_sorted x l : P x -> Forall P l -> StronglySorted (fun a b => leb a b = true) l -> StronglySorted (fun a b => leb a b = true) (insert leb x l).
  Proof.
    intros Hx HF. induction l as [|y l IH]; intros HS; cbn.
    - constructor; constructor.
    - inversion HF; subst. inversion HS; subst. destruct (leb x y) eqn:E.
      + constructor; auto. constructor; auto. rewrite Forall_forall in *. intros z Hz. eapply trans; [| | |exact E|]; auto.
      + constructor; [apply IH; auto|]. eapply Permutation_Forall; [apply insert_perm|]. constructor; auto.
  Qed.
  Lemma isort_sorted l : Forall P l -> StronglySorted (fun a b => leb a b = true) (isort leb l).
  Proof.
    induction l as [|x l IH]; intros H; cbn; [constructor|]. inversion H; subst. apply insert_sorted; auto.
    eapply Permutation_Forall; [apply isort_perm|]; auto.
  Qed.
End Sort.
Lemma isort_length {A} (leb : A -> A -> bool) l : length (isort leb l) = length l.
Proof. symmetry. apply Permutation_length, isort_perm. Qed.
(** sorted lists with the same elements are equal when the order is antisymmetric *)
Lemma sorted_perm_eq {A} (R : A -> A -> Prop) (l l' : list A) : (forall x y, In x l -> In y l -> R x y -> R y x -> x = y) ->
  StronglySorted R l -> StronglySorted R l' -> Permutation l l' -> l = l'.
Proof.
  revert l'. induction l as [|a l IH]; intros l' anti Sl Sl' Pm.
  - apply Permutation_nil in Pm. auto.
  - destruct l' as [|b l']; [apply Permutation_sym, Permutation_nil in Pm; discriminate|].
    inversion Sl; subst. inversion Sl'; subst.
    assert (a = b) as <-.
    { assert (Ha : In a (b :: l')) by (eapply Permutation_in; [exact Pm|cbn; auto]).
      assert (Hb : In b (a :: l)) by (eapply Permutation_in; [apply Permutation_sym; exact Pm|cbn; auto]).
      destruct Ha as [->|Ha]; auto. destruct Hb as [->|Hb]; auto. rewrite Forall_forall in *. apply anti; cbn; auto. }
    f_equal. apply IH; auto. { intros; apply anti; cbn; auto. } eapply Permutation_cons_inv; eauto.
Qed.
Lemma isort_Z_sorted l : StronglySorted (fun a b => (a <=? b)%Z = true) (isort Z.leb l).
Proof. apply (isort_sorted Z.leb (fun _ => True)); intros; lia || auto. apply Forall_forall; auto. Qed.
Lemma isort_Z_eq l l' : isort Z.leb l = isort Z.leb l' <-> Permutation l l'.
Proof.
  split; intros H.
  - rewrite (isort_perm Z.leb l), (isort_perm Z.leb l'), H. auto.
  - apply (sorted_perm_eq (fun a b => (a <=? b)%Z = true)); try apply isort_Z_sorted. { intros; lia. }
    rewrite <- (isort_perm Z.leb l), <- (isort_perm Z.leb l'). auto.
Qed.

(** a sequence of writes into a list *)
Definition fold_writes {A} (ws : list (nat * A)) (l : list A) : list A := fold_left (fun l w => list_upd l (fst w) (snd w)) ws l.
Lemma fold_writes_length {A} (ws : list (nat * A)) : forall l, length (fold_writes ws l) = length l.
Proof. induction ws as [|w ws IH]; intros l; auto. change (fold_writes (w :: ws) l) with (fold_writes ws (list_upd l (fst w) (snd w))). rewrite IH, list_upd_length. auto. Qed.
Lemma fold_writes_none {A} (ws : list (nat * A)) : forall l n, (forall x, ~ In (n, x) ws) -> nth_error (fold_writes ws l) n = nth_error l n.
Proof.
  induction ws as [|[k x] ws IH]; intros l n H; auto. change (fold_writes ((k, x) :: ws) l) with (fold_writes ws (list_upd l k x)). rewrite IH.
  - apply list_upd_other. intros ->. apply (H x); cbn; auto.
  - intros y Hy. apply (H y); cbn; auto.
Qed.
Lemma fold_writes_all {A} (ws : list (nat * A)) : forall l n a, n < length l -> (forall x, In (n, x) ws -> x = a) -> (exists x, In (n, x) ws) ->
  nth_error (fold_writes ws l) n = Some a.
Proof.
  induction ws as [|[k x] ws IH]; intros l n a Hn Ha (y & Hy); [contradiction|]. change (fold_writes ((k, x) :: ws) l) with (fold_writes ws (list_upd l k x)). cbn [In] in *.
  destruct (in_dec Nat.eq_dec n (map fst ws)) as [Hi|Hi].
  - apply IH; [rewrite list_upd_length; auto|intros z Hz; apply Ha; auto|].
    apply in_map_iff in Hi. destruct Hi as ([n' z] & <- & Hz). exists z. auto.
  - assert (Hn' : forall z, ~ In (n, z) ws) by (intros z Hz; apply Hi, in_map_iff; exists (n, z); auto).
    rewrite fold_writes_none by auto. destruct Hy as [E|Hy]; [|exfalso; eapply Hn'; eauto]. injection E as -> ->.
    rewrite list_upd_same by auto. f_equal. apply Ha. auto.
Qed.
Lemma fold_writes_app {A} (u v : list (nat * A)) l : fold_writes (u ++ v) l = fold_writes v (fold_writes u l).
Proof. unfold fold_writes. apply fold_left_app. Qed.

Lemma nth_error_enum {A} (l : list A) : forall s n a, In (n, a) (combine (seq s (length l)) l) <-> (s <= n /\ nth_error l (n - s) = Some a).
Proof.
  induction l as [|x l IH]; intros s n a; cbn [length seq combine In].
  - split; [contradiction|]. intros [_ H]. destruct (n - s); discriminate.
  - rewrite IH. split.
    + intros [E|[H1 H2]].
      * injection E as <- <-. split; auto. rewrite Nat.sub_diag. auto.
      * split; [lia|]. replace (n - s) with (S (n - S s)) by lia. auto.
    + intros [H1 H2]. destruct (Nat.eq_dec n s) as [->|Hne].
      * rewrite Nat.sub_diag in H2. injection H2 as ->. auto.
      * right. split; [lia|]. replace (n - s) with (S (n - S s)) in H2 by lia. auto.
Qed.
Lemma NoDup_flat_map {A B} (f : A -> list B) l : NoDup l -> (forall x, In x l -> NoDup (f x)) ->
  (forall x y b, In x l -> In y l -> In b (f x) -> In b (f y) -> x = y) -> NoDup (flat_map f l).
Proof.
  induction l as [|a l IH]; intros Hn Hf Hd; cbn; [constructor|]. inversion Hn; subst.
  assert (Hl : NoDup (flat_map f l)) by (apply IH; auto; [intros; apply Hf; cbn; auto|intros x y b Hx Hy; apply Hd; cbn; auto]).
  assert (Hx : forall b, In b (f a) -> ~ In b (flat_map f l)).
  { intros b Hb Hb'. apply in_flat_map in Hb'. destruct Hb' as (y & Hy & Hby). assert (a = y) by (eapply Hd; cbn; eauto). subst; contradiction. }
  specialize (Hf a (or_introl eq_refl)). clear - Hf Hl Hx. induction (f a) as [|b fa IHf]; cbn; auto. inversion Hf; subst. constructor.
  - rewrite in_app_iff. intros [|]; [contradiction|apply (Hx b); cbn; auto].
  - apply IHf; auto. intros; apply Hx; cbn; auto.
Qed.
Lemma map_opt_app {A B} (f : A -> option B) (l l' : list A) : map_opt f (l ++ l') =
  match map_opt f l, map_opt f l' with Some a, Some b => Some (a ++ b) | _, _ => None end.
Proof.
  induction l as [|x l IH]; cbn; [destruct (map_opt f l'); auto|]. destruct (f x); auto. rewrite IH.
  destruct (map_opt f l), (map_opt f l'); auto.
Qed.
Lemma NoDup_enum {A} (l : list A) s : NoDup (combine (seq s (length l)) l).
Proof.
  revert s. induction l as [|x l IH]; intros s; cbn; constructor; auto.
  intros H. apply in_combine_l in H. apply in_seq in H. lia.
Qed.
