From Coq Require Import Permutation.
From Verif Require Import Base ColorModel.

(** ** edges *)
Lemma contact_edges_ok {A} (d : A) shares cps k i :
  In (k, i) (contact_edges d shares cps) <-> (k < i < length cps)%nat /\ shares (nth k cps d) (nth i cps d) = true.
Proof.
  unfold contact_edges. rewrite in_flat_map. split.
  - intros [k' [Hk' H]]. apply in_map_iff in H as [i' [E H]]. injection E as -> ->.
    apply filter_In in H as [H1 H2]. apply in_seq in H1. apply in_seq in Hk'. split; [lia|auto].
  - intros [[H1 H2] H3]. exists k. split; [apply in_seq; lia|]. apply in_map_iff. exists i. split; auto.
    apply filter_In. split; auto. apply in_seq. lia.
Qed.

(** ** groups *)
Section Groups.
Context {A : Type}.
Variable col : A -> Z.
Definition group_all (l : list A) : list (Z * list A) := fold_left (fun g x => group_append g (col x) x) l [].

Lemma group_append_perm gs c (x : A) : Permutation (concat (map snd (group_append gs c x))) (x :: concat (map snd gs)).
Proof.
  induction gs as [|[c' l] gs IH]; cbn; auto.
  destruct (Z.eqb c' c); cbn.
  - rewrite <- app_assoc. cbn. apply Permutation_sym, Permutation_middle.
  - rewrite IH. apply Permutation_sym, Permutation_middle.
Qed.
Lemma group_append_keys gs c (x : A) : forall k, In k (map fst (group_append gs c x)) <-> k = c \/ In k (map fst gs).
Proof.
  induction gs as [|[c' l] gs IH]; cbn; intro k; [intuition|].
  destruct (Z.eqb_spec c' c); cbn; [|rewrite IH]; intuition (subst; auto).
Qed.
Lemma group_append_nodup gs c (x : A) : NoDup (map fst gs) -> NoDup (map fst (group_append gs c x)).
Proof.
  induction gs as [|[c' l] gs IH]; cbn; intro H; [constructor; [intros []|constructor]|].
  inversion H; subst. destruct (Z.eqb_spec c' c); cbn; constructor; auto.
  rewrite group_append_keys. intros [E|E]; auto.
Qed.
Lemma group_append_in gs c (x : A) c' l' : NoDup (map fst gs) ->
  In (c', l') (group_append gs c x) ->
  (c' <> c /\ In (c', l') gs) \/ (c' = c /\ exists l0, l' = l0 ++ [x] /\ (In (c, l0) gs \/ (l0 = [] /\ ~ In c (map fst gs)))).
Proof.
  induction gs as [|[c1 l1] gs IH]; cbn; intros N H.
  - destruct H as [H|[]]. injection H as <- <-. right. split; auto. exists []. cbn; split; auto.
  - inversion N; subst. destruct (Z.eqb_spec c1 c) as [->|Hne]; cbn in H.
    + destruct H as [H|H].
      * injection H as <- <-. right. split; auto. exists l1. auto.
      * left. split; auto. intros ->. apply H2. apply in_map_iff. exists (c, l'). auto.
    + destruct H as [H|H].
      * injection H as <- <-. left; auto.
      * destruct (IH H3 H) as [[L1 L2]|[L1 [l0 [L2 L3]]]]; [left; auto|right]. split; auto.
        exists l0. split; auto. destruct L3 as [L3|[-> L3]]; auto. right. split; auto. intros [E|E]; auto.
Qed.

(** the dictionary: key c holds, in order, exactly the elements of colour c *)
Lemma group_all_ok l : NoDup (map fst (group_all l)) /\ Permutation (concat (map snd (group_all l))) l /\
  (forall c g, In (c, g) (group_all l) -> g = filter (fun x => Z.eqb (col x) c) l /\ g <> []) /\
  (forall x, In x l -> In (col x) (map fst (group_all l))).
Proof.
  unfold group_all. pattern l. apply rev_ind.
  - cbn. repeat split; auto using NoDup_nil; try (intros; contradiction).
  - clear l. intros x l (H1 & H2 & H3 & H4). rewrite fold_left_app. cbn [fold_left].
    set (gs := fold_left _ l []) in *. split; [apply group_append_nodup; auto|]. split; [|split].
    + rewrite group_append_perm. rewrite H2. apply Permutation_cons_append.
    + intros c g H. apply group_append_in in H; auto. rewrite filter_app. cbn.
      destruct H as [[N H]|[-> [l0 [-> H]]]].
      * destruct (H3 c g H) as [-> Hne]. destruct (Z.eqb_spec (col x) c); [congruence|]. rewrite app_nil_r. auto.
      * rewrite Z.eqb_refl. split; [|intro E; apply app_eq_nil in E as [_ E]; discriminate].
        f_equal. destruct H as [H|[-> H]]; [apply H3; auto|].
        symmetry. apply Bool.not_true_is_false || idtac.
        destruct (filter (fun y => Z.eqb (col y) (col x)) l) as [|y t] eqn:E; auto. exfalso. apply H.
        assert (I : In y (filter (fun y => Z.eqb (col y) (col x)) l)) by (rewrite E; left; auto).
        apply filter_In in I as [I1 I2]. apply Z.eqb_eq in I2. rewrite <- I2. apply H4; auto.
    + intros y H. apply group_append_keys. apply in_app_iff in H. destruct H as [H|[<-|[]]]; auto.
Qed.
End Groups.

(** ** random colouring *)
Lemma memb_iff v l : memb v l = true <-> In v l.
Proof.
  unfold memb. rewrite existsb_exists. split.
  - intros [x [H E]]. apply Nat.eqb_eq in E. subst; auto.
  - intro H. exists v. rewrite Nat.eqb_refl. auto.
Qed.
Lemma memb_false v l : memb v l = false <-> ~ In v l.
Proof. rewrite <- memb_iff. destruct (memb v l); split; intros; auto; congruence. Qed.

Section RC.
Variable K : nat.
Variable adj : nat -> nat -> bool.
Variable choose : nat -> nat -> list Z -> Z.
Variable order : nat -> list nat -> list nat.
Hypothesis adj_sym : forall u v, adj u v = adj v u.
Hypothesis adj_irr : forall v, adj v v = false.
Hypothesis choose_in : forall it v l, l <> [] -> In (choose it v l) l.
Hypothesis order_perm : forall it l, Permutation (order it l) l.

Lemma neighbors_in v u : In u (neighbors K adj v) <-> (u < K)%nat /\ adj v u = true.
Proof. unfold neighbors. rewrite filter_In, in_seq. intuition lia. Qed.

Lemma max_color_ge C v c : (v < K)%nat -> C v = Some c -> (c <= max_color K C)%Z.
Proof.
  intros Hv Hc. unfold max_color.
  assert (M : forall l m, (m <= fold_left (fun m v => match C v with Some c => Z.max m c | None => m end) l m)%Z).
  { induction l as [|a l IH]; cbn; intro m; [lia|]. eapply Z.le_trans; [|apply IH]. destruct (C a); lia. }
  assert (I : In v (seq 0 K)) by (apply in_seq; lia). generalize (-1)%Z as m.
  induction (seq 0 K) as [|a l IH]; [destruct I|]. intro m. cbn. destruct I as [->|I].
  - rewrite Hc. eapply Z.le_trans; [|apply M]. lia.
  - apply IH; auto.
Qed.

Definition good (U : list nat) (C : nat -> option Z) (pal : nat -> list Z) : Prop :=
  NoDup U /\ (forall v, In v U -> (v < K)%nat) /\
  (forall v, (v < K)%nat -> ~ In v U -> C v <> None) /\
  (forall u v, (u < K)%nat -> (v < K)%nat -> ~ In u U -> ~ In v U -> adj u v = true -> C u <> C v) /\
  (forall u v c, (u < K)%nat -> ~ In u U -> In v U -> adj u v = true -> C u = Some c -> ~ In c (pal v)) /\
  (forall v, In v U -> pal v <> [] \/ forall u, (u < K)%nat -> adj v u = false).

Lemma rc_fresh_ok vs : forall m pal,
  (forall v, In v vs -> rc_fresh vs m pal v <> []) /\
  (forall v c, In c (rc_fresh vs m pal v) -> In c (pal v) \/ (m < c)%Z) /\
  (forall v, pal v <> [] -> rc_fresh vs m pal v <> []).
Proof.
  induction vs as [|v vs IH]; intros m pal; cbn; [repeat split; auto; intros ? []|].
  destruct (pal v) as [|p t] eqn:E.
  - destruct (IH (m+1)%Z (fun u => if Nat.eqb u v then [(m + 1)%Z] else pal u)) as (A & B & D).
    repeat split.
    + intros u [<-|H]; auto. apply D. rewrite Nat.eqb_refl. discriminate.
    + intros u c H. destruct (B u c H) as [H'|H']; [|right; lia].
      destruct (Nat.eqb_spec u v); auto. destruct H' as [<-|[]]. right; lia.
    + intros u H. apply D. destruct (Nat.eqb_spec u v); auto. discriminate.
  - destruct (IH m pal) as (A & B & D). repeat split; auto.
    intros u [<-|H]; auto. apply D. rewrite E. discriminate.
Qed.

Lemma good_step it U C pal : good U C pal ->
  let C' := rc_touch U (rc_pick choose it U C pal) in
  let Is := filter (rc_free K adj U C') U in
  let pal1 := rc_discard adj U Is C' pal in
  let U' := filter (fun v => negb (memb v Is)) U in
  good U' C' (rc_fresh (order it U') (max_color K C') pal1).
Proof.
  intros (G1 & G2 & G3 & G4 & G5 & G6) C' Is pal1 U'.
  assert (Cold : forall v, ~ In v U -> C' v = C v).
  { intros v H. apply memb_false in H. unfold C', rc_touch, rc_pick. rewrite H. reflexivity. }
  assert (Cnew : forall v, In v U -> exists c, C' v = Some c /\ (pal v <> [] -> In c (pal v))).
  { intros v H. apply memb_iff in H. unfold C', rc_touch, rc_pick. rewrite H.
    destruct (pal v) as [|p t] eqn:E.
    - destruct (C v) as [c|]; [exists c|exists 0%Z]; split; auto; congruence.
    - exists (choose it v (p :: t)). split; [reflexivity|]. intros _. apply choose_in. discriminate. }
  assert (HU' : forall v, In v U' <-> In v U /\ ~ In v Is).
  { intro v. unfold U'. rewrite filter_In, negb_true_iff, memb_false. reflexivity. }
  assert (HI : forall v, In v Is <-> In v U /\ rc_free K adj U C' v = true).
  { intro v. unfold Is. rewrite filter_In. reflexivity. }
  assert (Hfree : forall u v, In v Is -> In u U -> adj v u = true -> C' u <> C' v).
  { intros u v Hv Hu Ha E. apply HI in Hv as [Hv Hf]. unfold rc_free in Hf.
    apply negb_true_iff in Hf. rewrite <- not_true_iff_false in Hf. apply Hf. apply existsb_exists.
    exists u. split; [apply neighbors_in; split; auto|]. apply andb_true_intro. split; [apply memb_iff; auto|].
    unfold rc_get. rewrite E. apply Z.eqb_refl. }
  destruct (rc_fresh_ok (order it U') (max_color K C') pal1) as (F1 & F2 & F3).
  assert (Pal1 : forall v c, In v U -> In c (pal1 v) -> In c (pal v) /\ forall u, In u Is -> adj u v = true -> C' u <> Some c).
  { intros v c Hv H. unfold pal1, rc_discard in H. replace (memb v U) with true in H by (symmetry; apply memb_iff; auto).
    apply filter_In in H as [H1 H2]. split; auto. intros u Hu Ha E. apply negb_true_iff in H2.
    rewrite <- not_true_iff_false in H2. apply H2. apply existsb_exists. exists u. split; auto.
    rewrite Ha. unfold rc_get. rewrite E. cbn. apply Z.eqb_refl. }
  split; [apply NoDup_filter; auto|]. split; [intros v H; apply HU' in H as [H _]; auto|].
  split; [|split; [|split]].
  - intros v Hv H E. destruct (in_dec Nat.eq_dec v U) as [I|I].
    + destruct (Cnew v I) as [c [E' _]]. congruence.
    + rewrite Cold in E by auto. apply (G3 v); auto.
  - (* finalised pairs *)
    assert (Half : forall u v, (u < K)%nat -> (v < K)%nat -> ~ In u U -> In v Is -> adj u v = true -> C' u <> C' v).
    { intros u v Hu Hv Nu Iv Ha E. pose proof (proj1 (HI v) Iv) as [Uv _].
      destruct (Cnew v Uv) as [c [E' P]]. rewrite Cold in E by auto. rewrite E' in E.
      destruct (G6 v Uv) as [Hp|Hp]; [|rewrite adj_sym, Hp in Ha; auto; discriminate].
      apply (G5 u v c); auto. }
    intros u v Hu Hv Nu Nv Ha E.
    assert (Du : ~ In u U \/ In u Is). { destruct (in_dec Nat.eq_dec u U); auto. right. destruct (in_dec Nat.eq_dec u Is); auto. exfalso. apply Nu. apply HU'. auto. }
    assert (Dv : ~ In v U \/ In v Is). { destruct (in_dec Nat.eq_dec v U); auto. right. destruct (in_dec Nat.eq_dec v Is); auto. exfalso. apply Nv. apply HU'. auto. }
    destruct Du as [Du|Du], Dv as [Dv|Dv].
    + rewrite !Cold in E by auto. apply (G4 u v); auto.
    + apply (Half u v); auto.
    + apply (Half v u); auto. rewrite adj_sym; auto.
    + apply (Hfree v u Du); auto. apply HI in Dv; tauto.
  - intros u v c Hu Nu Iv Ha E Hc. apply HU' in Iv as [Uv Nv].
    destruct (F2 v c Hc) as [H|H].
    + destruct (Pal1 v c Uv H) as [P1 P2]. destruct (in_dec Nat.eq_dec u U) as [I|I].
      * assert (Iu : In u Is). { destruct (in_dec Nat.eq_dec u Is); auto. exfalso. apply Nu. apply HU'. auto. }
        apply (P2 u Iu Ha E).
      * rewrite Cold in E by auto. apply (G5 u v c); auto.
    + pose proof (max_color_ge C' u c Hu E). lia.
  - intros v H. left. apply F1. eapply Permutation_in; [apply Permutation_sym, order_perm|auto].
Qed.

Lemma good_loop : forall fuel it U C pal, good U C pal ->
  exists pal', let '(U', C') := rc_loop K adj choose order fuel it U C pal in good U' C' pal'.
Proof.
  induction fuel as [|fuel IH]; intros it U C pal H; cbn [rc_loop]; [exists pal; auto|].
  destruct U as [|v0 U0]; [exists pal; auto|]. apply IH. apply good_step; auto.
Qed.

Lemma rc_rest_ok vs : forall m C, NoDup vs ->
  (forall v, ~ In v vs -> rc_rest vs m C v = C v) /\
  (forall v, In v vs -> exists c, rc_rest vs m C v = Some c /\ (m < c)%Z) /\
  (forall u v, In u vs -> In v vs -> u <> v -> rc_rest vs m C u <> rc_rest vs m C v).
Proof.
  induction vs as [|v vs IH]; intros m C N; cbn; [repeat split; auto; intros ? []|].
  inversion N; subst. destruct (IH (m+1)%Z (fun u => if Nat.eqb u v then Some (m + 1)%Z else C u)) as (A & B & D); auto.
  assert (Ev : rc_rest vs (m + 1) (fun u => if Nat.eqb u v then Some (m + 1)%Z else C u) v = Some (m+1)%Z).
  { rewrite A by auto. rewrite Nat.eqb_refl. reflexivity. }
  repeat split.
  - intros u H. rewrite A by (intro; apply H; auto). destruct (Nat.eqb_spec u v); auto. exfalso; apply H; auto.
  - intros u [<-|H]; [exists (m+1)%Z; split; [exact Ev|lia]|]. destruct (B u H) as [c [E L]]. exists c. split; auto; lia.
  - intros u w [<-|Hu] [<-|Hw] Hne; auto.
    + rewrite Ev. destruct (B w Hw) as [c [-> L]]. intro E. injection E. lia.
    + rewrite Ev. destruct (B u Hu) as [c [-> L]]. intro E. injection E. lia.
Qed.

Lemma good_init : good (seq 0 K) (fun _ => None) (palette0 K adj).
Proof.
  split; [apply seq_NoDup|]. split; [intros v H; apply in_seq in H; lia|].
  split; [intros v H N; exfalso; apply N; apply in_seq; lia|].
  split; [intros u v H _ N; exfalso; apply N; apply in_seq; lia|].
  split; [intros u v c H N; exfalso; apply N; apply in_seq; lia|].
  intros v H. unfold palette0. destruct (neighbors K adj v) as [|u t] eqn:E.
  - right. intros u Hu. destruct (adj v u) eqn:A; auto.
    assert (I : In u (neighbors K adj v)) by (apply neighbors_in; auto). rewrite E in I. destruct I.
  - left. cbn. discriminate.
Qed.

Lemma random_ok max_iter :
  (forall v, (v < K)%nat -> random_coloring K adj choose order max_iter v <> None) /\
  (forall u v, (u < K)%nat -> (v < K)%nat -> adj u v = true ->
     random_coloring K adj choose order max_iter u <> random_coloring K adj choose order max_iter v).
Proof.
  unfold random_coloring.
  destruct (good_loop max_iter 0 _ _ _ good_init) as [pal' G].
  destruct (rc_loop K adj choose order max_iter 0 (seq 0 K) (fun _ => None) (palette0 K adj)) as [U C].
  destruct G as (G1 & G2 & G3 & G4 & _ & _).
  assert (N : NoDup (order max_iter U)) by (eapply Permutation_NoDup; [apply Permutation_sym, order_perm|auto]).
  destruct (rc_rest_ok (order max_iter U) (max_color K C) C N) as (A & B & D).
  assert (Iff : forall v, In v (order max_iter U) <-> In v U).
  { intro v. split; apply Permutation_in; [|apply Permutation_sym]; apply order_perm. }
  split.
  - intros v Hv E. destruct (in_dec Nat.eq_dec v U) as [I|I].
    + apply Iff in I. destruct (B v I) as [c [E' _]]. congruence.
    + rewrite A in E by (rewrite Iff; auto). apply (G3 v); auto.
  - intros u v Hu Hv Ha E.
    assert (u <> v) by (intros ->; rewrite adj_irr in Ha; discriminate).
    destruct (in_dec Nat.eq_dec u U) as [Iu|Iu], (in_dec Nat.eq_dec v U) as [Iv|Iv].
    + apply (D u v); auto; apply Iff; auto.
    + apply Iff in Iu. destruct (B u Iu) as [c [E' L]]. rewrite E' in E. rewrite A in E by (rewrite Iff; auto).
      pose proof (max_color_ge C v c Hv (eq_sym E)). lia.
    + apply Iff in Iv. destruct (B v Iv) as [c [E' L]]. rewrite E' in E. rewrite A in E by (rewrite Iff; auto).
      pose proof (max_color_ge C u c Hu E). lia.
    + rewrite !A in E by (rewrite Iff; auto). apply (G4 u v); auto.
Qed.
End RC.
