From Verif Require Import Base BvhModel BvhSpec KdopProofs BvhProofs BvhRefit.
From Coq Require Import Permutation.
Open Scope R_scope.

Lemma list_prod_app_l {A B} (a a' : list A) (b : list B) : list_prod (a ++ a') b = list_prod a b ++ list_prod a' b.
Proof. induction a as [|x a IH]; cbn; auto. rewrite IH, app_assoc. auto. Qed.
Lemma list_prod_app_r {A B} (a : list A) (b b' : list B) : Permutation (list_prod a (b ++ b')) (list_prod a b ++ list_prod a b').
Proof.
  induction a as [|x a IH]; cbn; auto. rewrite map_app, IH, <- !app_assoc. apply Permutation_app_head.
  rewrite !app_assoc. apply Permutation_app_tail. apply Permutation_app_comm.
Qed.
Lemma filter_perm {A} (f : A -> bool) l l' : Permutation l l' -> Permutation (filter f l) (filter f l').
Proof.
  induction 1; cbn; auto.
  - destruct (f x); auto.
  - destruct (f x), (f y); auto using perm_swap.
  - eapply perm_trans; eauto.
Qed.
Lemma flat_map_perm {A B} (f : A -> list B) l l' : Permutation l l' -> Permutation (flat_map f l) (flat_map f l').
Proof.
  induction 1; cbn; auto.
  - apply Permutation_app_head; auto.
  - rewrite !app_assoc. apply Permutation_app_tail, Permutation_app_comm.
  - eapply perm_trans; eauto.
Qed.
Lemma NoDup_list_prod {A B} (a : list A) (b : list B) : NoDup a -> NoDup b -> NoDup (list_prod a b).
Proof.
  intros Ha Hb. induction Ha as [|x a Hx Ha IH]; cbn; [constructor|].
  assert (D : forall l1 l2 : list (A * B), NoDup l1 -> NoDup l2 -> (forall p, In p l1 -> ~ In p l2) -> NoDup (l1 ++ l2)).
  { induction l1 as [|p l1 IH1]; cbn; auto. intros l2 H1 H2 H3. inversion H1; subst. constructor.
    - rewrite in_app_iff. intros [|]; [auto|]. apply (H3 p); auto.
    - apply IH1; auto. }
  apply D; auto.
  - apply FinFun.Injective_map_NoDup; auto. intros u v E; injection E; auto.
  - intros [u v] H1 H2. apply in_map_iff in H1. destruct H1 as (w & E & _). injection E as <- <-.
    apply in_prod_iff in H2. tauto.
Qed.
Lemma zrange_two l : zrange (Z.of_nat l) (Z.of_nat (S l) + 1) = [Z.of_nat l; Z.of_nat (S l)].
Proof.
  unfold zrange. replace (Z.to_nat (Z.of_nat (S l) + 1 - Z.of_nat l)) with 2%nat by lia. cbn [seq map]. f_equal; [lia|]. f_equal. lia.
Qed.
Lemma bsize_pos t : (1 <= bsize t)%nat. Proof. destruct t; cbn; lia. Qed.

Section Traverse.
  Variables (VA VB : list vec3) (TA TB : list (list Z)) (K : nat) (envA envB : R).
  Hypothesis HK : supported_K K.
  Hypothesis HTA : valid_mesh VA TA.
  Hypothesis HTB : valid_mesh VB TB.
  Let ekA := elem_kdop VA TA K envA.
  Let ekB := elem_kdop VB TB K envB.
  Let tvA := tvol VA TA K envA.
  Let tvB := tvol VB TB K envB.
  (** the two elements' k-DOPs overlap *)
  Definition ov (p : Z * Z) : bool :=
    match ekA (fst p), ekB (snd p) with
    | Some a, Some b => match kdop_overlap a b with Some o => o | None => false end
    | _, _ => false
    end.
  Definition pairs_of (p : btree * btree) : list (Z * Z) := filter ov (list_prod (leaves (fst p)) (leaves (snd p))).
  Definition weight (p : btree * btree) : nat := (bsize (fst p) * bsize (snd p))%nat.
  Definition weights (l : list (btree * btree)) : nat := fold_right (fun p n => (weight p + n)%nat) 0%nat l.
  Lemma weights_app a b : weights (a ++ b) = (weights a + weights b)%nat.
  Proof. unfold weights. induction a as [|p a IH]; cbn; auto. rewrite IH; lia. Qed.

  Lemma pairs_empty a b ta tb : tvA ta = Some a -> tvB tb = Some b -> slabs_overlap a b = false -> pairs_of (ta, tb) = [].
  Proof.
    intros Ea Eb No. unfold pairs_of; cbn.
    assert (G : forall p, In p (list_prod (leaves ta) (leaves tb)) -> ov p = false).
    { intros [x y] H. apply in_prod_iff in H. destruct H as [Hx Hy].
      destruct (tvol_leaf_sub _ _ _ _ _ _ Ea x Hx) as (ka & Eka & Sa).
      destruct (tvol_leaf_sub _ _ _ _ _ _ Eb y Hy) as (kb & Ekb & Sb).
      unfold ov, ekA, ekB; cbn [fst snd]. rewrite Eka, Ekb. unfold kdop_overlap.
      destruct (Nat.eqb (length ka) (length kb)); auto. destruct (slabs_overlap ka kb) eqn:E; auto.
      rewrite (slabs_overlap_mono _ _ _ _ Sa Sb E) in No. discriminate. }
    induction (list_prod (leaves ta) (leaves tb)) as [|p l IH]; cbn; auto. rewrite G by (cbn; auto). apply IH. intros; apply G; cbn; auto.
  Qed.

  Variables (nsA nsB : list node).
  Hypothesis FA : fitted_from VA TA K envA 0 nsA.
  Hypothesis FB : fitted_from VB TB K envB 0 nsB.
  Definition rep (ns : list node) (T : list (list Z)) (n : node) (t : btree) : Prop :=
    exists i ix, nth_error ns i = Some n /\ repr ns i t ix /\ tree_in T t.
  Lemma rep_vol_A n t : rep nsA TA n t -> exists v, n_volume n = Some v /\ tvA t = Some v /\ length v = K.
  Proof.
    intros (i & ix & E & R & I). destruct (FA i t ix) as (n' & E' & Ev); [lia|auto|]. rewrite E in E'; injection E' as <-.
    destruct (tvol_some VA TA K envA HK HTA t I) as (v & Et & Lv). exists v. rewrite Ev. auto.
  Qed.
  Lemma rep_vol_B n t : rep nsB TB n t -> exists v, n_volume n = Some v /\ tvB t = Some v /\ length v = K.
  Proof.
    intros (i & ix & E & R & I). destruct (FB i t ix) as (n' & E' & Ev); [lia|auto|]. rewrite E in E'; injection E' as <-.
    destruct (tvol_some VB TB K envB HK HTB t I) as (v & Et & Lv). exists v. rewrite Ev. auto.
  Qed.
  Lemma rep_leaf ns T n e : rep ns T n (BLeaf e) -> is_leaf n = true /\ n_start n = e.
  Proof.
    intros (i & ix & E & R & I). inversion R as [? m ? H1 H2 H3 H4|]; subst. rewrite E in H1; injection H1 as <-.
    split; auto. unfold is_leaf, UNDEFINED. rewrite H3, Z.eqb_refl. destruct (Z.eqb_spec (n_start n) (-1)); [lia|auto].
  Qed.
  Lemma rep_node ns T n l r : rep ns T n (BNode l r) -> is_leaf n = false /\
    exists nl nr, node_children ns n = Some [nl; nr] /\ rep ns T nl l /\ rep ns T nr r.
  Proof.
    intros (i & ix & E & R & I). inversion R as [|? m il ir ? ? ixl ixr nl nr H1 H2 H3 H4 H5 H6 H7 H8 H9 Hl Hr]; subst. rewrite E in H1; injection H1 as <-.
    split.
    - unfold is_leaf. rewrite H2, H3. destruct (Z.eqb_spec (Z.of_nat il) (Z.of_nat (S il))); [lia|]. apply andb_false_r.
    - exists nl, nr. split.
      + unfold node_children. rewrite H2, H3, zrange_two. cbn [map_opt]. rewrite !py_get_nat, H6, H8. reflexivity.
      + split; [exists il, ixl|exists (S il), ixr]; (split; [auto|]; split; [auto|]); intros e0 He; apply I; cbn; apply in_or_app; auto.
  Qed.
  Lemma pairs_split_l l r tb : Permutation (pairs_of (BNode l r, tb)) (pairs_of (l, tb) ++ pairs_of (r, tb)).
  Proof. unfold pairs_of; cbn. rewrite list_prod_app_l, filter_app. reflexivity. Qed.
  Lemma pairs_split_r ta l r : Permutation (pairs_of (ta, BNode l r)) (pairs_of (ta, l) ++ pairs_of (ta, r)).
  Proof. unfold pairs_of; cbn. rewrite (filter_perm _ _ _ (list_prod_app_r _ _ _)), filter_app. reflexivity. Qed.

  Lemma traverse_loop_ok : forall fuel Q ts results,
    Forall2 (fun q t => rep nsA TA (fst q) (fst t) /\ rep nsB TB (snd q) (snd t)) Q ts ->
    (weights ts <= fuel)%nat ->
    exists r, traverse_loop fuel nsA nsB Q results = Some r /\ Permutation r (results ++ flat_map pairs_of ts).
  Proof.
    induction fuel as [|fuel IH]; intros Q ts results F W.
    - inversion F as [|[a b] [ta tb] ? ? H ?]; subst; cbn; [exists results; rewrite app_nil_r; auto|].
      cbn in W. unfold weight in W; cbn in W. pose proof (bsize_pos ta); pose proof (bsize_pos tb). nia.
    - inversion F as [|[a b] [ta tb] Q' ts' [Ra Rb] F']; subst; cbn [traverse_loop]; [exists results; cbn; rewrite app_nil_r; auto|].
      cbn [fst snd] in Ra, Rb.
      destruct (rep_vol_A _ _ Ra) as (va & Eva & Tva & Lva). destruct (rep_vol_B _ _ Rb) as (vb & Evb & Tvb & Lvb).
      rewrite Eva, Evb. unfold kdop_overlap. rewrite Lva, Lvb, Nat.eqb_refl.
      assert (Wp : (weight (ta, tb) + weights ts' <= S fuel)%nat) by exact W. clear W.
      assert (W1 : (1 <= weight (ta, tb))%nat) by (unfold weight; cbn; pose proof (bsize_pos ta); pose proof (bsize_pos tb); nia).
      cbn [flat_map].
      destruct (slabs_overlap va vb) eqn:O; cbn [negb].
      2: { rewrite (pairs_empty va vb ta tb Tva Tvb O). cbn [app]. apply IH; auto. lia. }
      destruct ta as [ea|la ra], tb as [eb|lb rb].
      + destruct (rep_leaf _ _ _ _ Ra) as [-> Sa]. destruct (rep_leaf _ _ _ _ Rb) as [-> Sb]. cbn [andb].
        rewrite Sa, Sb. destruct (IH Q' ts' (results ++ [(ea, eb)]) F') as (r & Er & Pr); [lia|].
        exists r; split; auto. rewrite Pr, <- app_assoc. apply Permutation_app_head.
        replace (pairs_of (BLeaf ea, BLeaf eb)) with [(ea, eb)]; [reflexivity|].
        unfold pairs_of; cbn [fst snd leaves list_prod map app filter]. unfold ov; cbn [fst snd].
        change (ekA ea) with (tvA (BLeaf ea)). change (ekB eb) with (tvB (BLeaf eb)). rewrite Tva, Tvb. unfold kdop_overlap.
        rewrite Lva, Lvb, Nat.eqb_refl, O. reflexivity.
      + destruct (rep_leaf _ _ _ _ Ra) as [La Sa]. destruct (rep_node _ _ _ _ _ Rb) as [Lb (nl & nr & Ec & Rl & Rr)].
        rewrite La, Lb. cbn [andb negb]. rewrite Ec. cbn [map].
        destruct (IH (Q' ++ [(a, nl); (a, nr)]) (ts' ++ [(BLeaf ea, lb); (BLeaf ea, rb)]) results) as (r & Er & Pr).
        * apply Forall2_app; [exact F'|]. repeat (apply Forall2_cons; [split; assumption|]); apply Forall2_nil.
        * rewrite weights_app. generalize dependent (weights ts'); intros w Ww. unfold weights, weight in *; cbn [fold_right fst snd bsize] in *. nia.
        * exists r; split; auto. rewrite Pr. apply Permutation_app_head. rewrite flat_map_app. cbn [flat_map]. rewrite app_nil_r.
          rewrite Permutation_app_comm. apply Permutation_app_tail. symmetry. apply pairs_split_r.
      + destruct (rep_leaf _ _ _ _ Rb) as [Lb Sb]. destruct (rep_node _ _ _ _ _ Ra) as [La (nl & nr & Ec & Rl & Rr)].
        rewrite La, Lb. cbn [andb negb]. rewrite Ec. cbn [map].
        destruct (IH (Q' ++ [(nl, b); (nr, b)]) (ts' ++ [(la, BLeaf eb); (ra, BLeaf eb)]) results) as (r & Er & Pr).
        * apply Forall2_app; [exact F'|]. repeat (apply Forall2_cons; [split; assumption|]); apply Forall2_nil.
        * rewrite weights_app. generalize dependent (weights ts'); intros w Ww. unfold weights, weight in *; cbn [fold_right fst snd bsize] in *. nia.
        * exists r; split; auto. rewrite Pr. apply Permutation_app_head. rewrite flat_map_app. cbn [flat_map]. rewrite app_nil_r.
          rewrite Permutation_app_comm. apply Permutation_app_tail. symmetry. apply pairs_split_l.
      + destruct (rep_node _ _ _ _ _ Ra) as [La (nal & nar & Eca & Ral & Rar)]. destruct (rep_node _ _ _ _ _ Rb) as [Lb (nbl & nbr & Ecb & Rbl & Rbr)].
        rewrite La, Lb. cbn [andb negb]. rewrite Eca, Ecb. cbn [map flat_map app].
        destruct (IH (Q' ++ [(nal, nbl); (nal, nbr); (nar, nbl); (nar, nbr)]) (ts' ++ [(la, lb); (la, rb); (ra, lb); (ra, rb)]) results) as (r & Er & Pr).
        * apply Forall2_app; [exact F'|]. repeat (apply Forall2_cons; [split; assumption|]); apply Forall2_nil.
        * rewrite weights_app. generalize dependent (weights ts'); intros w Ww. unfold weights, weight in *; cbn [fold_right fst snd bsize] in *. nia.
        * exists r; split; auto. rewrite Pr. apply Permutation_app_head. rewrite flat_map_app. cbn [flat_map]. rewrite app_nil_r.
          rewrite Permutation_app_comm. apply Permutation_app_tail. symmetry. rewrite pairs_split_l, !pairs_split_r, <- !app_assoc. reflexivity.
  Qed.
End Traverse.

Section Trees.
  Variables (VA VB : list vec3) (TA TB : list (list Z)) (K : nat) (envA envB : R).
  Hypothesis HK : supported_K K.
  Hypothesis HTA : valid_mesh VA TA.
  Hypothesis HTB : valid_mesh VB TB.
  Notation pairs_of := (pairs_of VA VB TA TB K envA envB).
  Notation ov := (ov VA VB TA TB K envA envB).

  Lemma sub_traversal_ok NA NB stA stB ta tb results :
    chunk_shape NA stA ta -> chunk_shape NB stB tb -> tree_in TA ta -> tree_in TB tb ->
    fitted_from VA TA K envA 0 (st_nodes stA) -> fitted_from VB TB K envB 0 (st_nodes stB) ->
    exists r, sub_tree_traversal stA stB results = Some r /\ Permutation r (results ++ pairs_of (ta, tb)).
  Proof.
    intros (_ & ixa & Ra & NDa & Ha & _) (_ & ixb & Rb & NDb & Hb & _) Ia Ib Fa Fb. unfold sub_tree_traversal.
    destruct (nth_error (st_nodes stA) 0) as [a|] eqn:Ea; [|inversion Ra; congruence].
    destruct (nth_error (st_nodes stB) 0) as [b|] eqn:Eb; [|inversion Rb; congruence].
    assert (Sa : (bsize ta <= length (st_nodes stA))%nat).
    { rewrite <- (repr_size _ _ _ _ Ra). rewrite <- (seq_length (length (st_nodes stA)) 0). apply NoDup_incl_length; auto.
      intros j Hj. apply in_seq. pose proof (repr_in_range _ _ _ _ Ra j Hj). lia. }
    assert (Sb : (bsize tb <= length (st_nodes stB))%nat).
    { rewrite <- (repr_size _ _ _ _ Rb). rewrite <- (seq_length (length (st_nodes stB)) 0). apply NoDup_incl_length; auto.
      intros j Hj. apply in_seq. pose proof (repr_in_range _ _ _ _ Rb j Hj). lia. }
    destruct (traverse_loop_ok VA VB TA TB K envA envB HK HTA HTB (st_nodes stA) (st_nodes stB) Fa Fb
      (S (length (st_nodes stA) * length (st_nodes stB))) [(a, b)] [(ta, tb)] results) as (r & Er & Pr).
    - repeat constructor; cbn; [exists 0%nat, ixa|exists 0%nat, ixb]; auto.
    - unfold weights, weight; cbn [fold_right fst snd]. nia.
    - exists r; split; auto. cbn [flat_map] in Pr. rewrite app_nil_r in Pr. auto.
  Qed.
  Lemma traverse_chunks_ok NA NB : forall l tl results,
    Forall2 (fun p t => (chunk_shape NA (fst p) (fst t) /\ tree_in TA (fst t) /\ fitted_from VA TA K envA 0 (st_nodes (fst p))) /\
      (chunk_shape NB (snd p) (snd t) /\ tree_in TB (snd t) /\ fitted_from VB TB K envB 0 (st_nodes (snd p)))) l tl ->
    exists r, traverse_chunks l results = Some r /\ Permutation r (results ++ flat_map pairs_of tl).
  Proof.
    induction l as [|[a b] l IH]; intros tl results F; inversion F as [|? [ta tb] ? tl' [(A1 & A2 & A3) (B1 & B2 & B3)] F']; subst; cbn [traverse_chunks].
    - exists results. cbn. rewrite app_nil_r. auto.
    - cbn in *. destruct (sub_traversal_ok NA NB a b ta tb results A1 B1 A2 B2 A3 B3) as (r & Er & Pr). rewrite Er.
      destruct (IH tl' r F') as (r' & Er' & Pr'). exists r'; split; auto. rewrite Pr', Pr, <- app_assoc. reflexivity.
  Qed.
  Lemma pairs_all tas tbs :
    Permutation (flat_map pairs_of (flat_map (fun a => map (fun b => (a, b)) tbs) tas)) (filter ov (list_prod (flat_map leaves tas) (flat_map leaves tbs))).
  Proof.
    induction tas as [|ta tas IH]; cbn; auto. rewrite flat_map_app, list_prod_app_l, filter_app, IH. apply Permutation_app_tail.
    clear. induction tbs as [|tb tbs IH]; cbn.
    - assert (E : forall l : list Z, list_prod l (@nil Z) = []) by (induction l; cbn; auto). rewrite E. reflexivity.
    - rewrite (filter_perm _ _ _ (list_prod_app_r _ _ _)), filter_app, IH. reflexivity.
  Qed.
  Lemma traversal_ok NA NB tsA tsB A B :
    bvh_ok VA TA K envA NA tsA A -> bvh_ok VB TB K envB NB tsB B ->
    exists r, traversal A B = Some r /\ Permutation r (filter ov (list_prod (flat_map leaves tsA) (flat_map leaves tsB))).
  Proof.
    intros (ShA & IA & FA & rA & ErA & LA & RA) (ShB & IB & FB & rB & ErB & LB & RB). unfold traversal. rewrite ErA, ErB.
    unfold kdop_overlap. rewrite LA, LB, Nat.eqb_refl. destruct (slabs_overlap rA rB) eqn:O; cbn [negb].
    - destruct (traverse_chunks_ok NA NB (flat_map (fun a => map (fun b => (a, b)) (tr_chunks B)) (tr_chunks A))
        (flat_map (fun a => map (fun b => (a, b)) tsB) tsA) []) as (r & Er & Pr).
      + clear - ShA IA FA ShB IB FB. induction ShA as [|st t sts ts H1 H2 IH]; cbn; [constructor|].
        inversion IA; inversion FA; subst. apply Forall2_app; auto.
        match goal with H : _ /\ _ |- _ => destruct H as [Fa _] end.
        clear - H1 H3 Fa ShB IB FB. induction ShB as [|st' t' sts' ts' G1 G2 IH']; cbn; [constructor|].
        inversion IB; inversion FB; subst. constructor; auto. cbn. tauto.
      + exists r; split; auto. rewrite Pr. cbn [app]. apply pairs_all.
    - exists []. split; auto.
      assert (G : forall p, In p (list_prod (flat_map leaves tsA) (flat_map leaves tsB)) -> ov p = false).
      { intros [x y] H. apply in_prod_iff in H. destruct H as [Hx Hy]. apply in_flat_map in Hx, Hy.
        destruct Hx as (ta & Hta & Hx), Hy as (tb & Htb & Hy). rewrite Forall_forall in RA, RB.
        destruct (RA ta Hta) as (va & Eva & Sva). destruct (RB tb Htb) as (vb & Evb & Svb).
        destruct (tvol_leaf_sub _ _ _ _ _ _ Eva x Hx) as (ka & Eka & Sa).
        destruct (tvol_leaf_sub _ _ _ _ _ _ Evb y Hy) as (kb & Ekb & Sb).
        unfold BvhTraverse.ov; cbn [fst snd]. rewrite Eka, Ekb. unfold kdop_overlap.
        destruct (Nat.eqb (length ka) (length kb)); auto. destruct (slabs_overlap ka kb) eqn:E; auto.
        rewrite (slabs_overlap_mono ka rA kb rB) in O; [discriminate| | |auto]; eapply kdop_sub_trans; eauto. }
      induction (list_prod _ _) as [|p l IH]; cbn; auto. rewrite G by (cbn; auto). apply IH. intros; apply G; cbn; auto.
  Qed.
End Trees.
