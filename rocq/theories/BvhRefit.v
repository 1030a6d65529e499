From Verif Require Import Base BvhModel BvhSpec KdopProofs BvhProofs.
From Coq Require Import Permutation.
Open Scope R_scope.

Section Refit.
  Variables (V : list vec3) (T : list (list Z)) (K : nat) (env : R).
  Hypothesis HK : supported_K K.
  Hypothesis HT : valid_mesh V T.
  Let ek := elem_kdop V T K env.

  Lemma ek_some e : (0 <= e < Z.of_nat (length T))%Z -> exists v, ek e = Some v /\ length v = K.
  Proof.
    intros He. unfold ek, elem_kdop. rewrite py_get_pos by lia.
    destruct (nth_error T (Z.to_nat e)) as [el|] eqn:E; [|apply nth_error_None in E; lia].
    destruct (HT el) as [vs Evs]; [eapply nth_error_In; eauto|]. rewrite Evs.
    assert (exists v, kdop_make K vs env = Some v) as [v Ev].
    { unfold kdop_make. destruct HK as [->| ->]; cbn; eauto. }
    rewrite Ev. exists v; split; auto. eapply kdop_make_length; eauto.
  Qed.
  (** semantic volume of a tree *)
  Fixpoint tvol (t : btree) : option kdop :=
    match t with
    | BLeaf e => ek e
    | BNode l r => match tvol l, tvol r with Some a, Some b => kdop_union a b | _, _ => None end
    end.
  Definition tree_in (t : btree) : Prop := forall e, In e (leaves t) -> (0 <= e < Z.of_nat (length T))%Z.
  Lemma tvol_some t : tree_in t -> exists v, tvol t = Some v /\ length v = K.
  Proof.
    induction t as [e|l IHl r IHr]; intros H.
    - cbn. apply ek_some. apply H; cbn; auto.
    - destruct IHl as (a & Ea & La); [intros e He; apply H; cbn; apply in_or_app; auto|].
      destruct IHr as (b & Eb & Lb); [intros e He; apply H; cbn; apply in_or_app; auto|].
      cbn [tvol]. rewrite Ea, Eb. unfold kdop_union. rewrite La, Lb, Nat.eqb_refl. eexists; split; eauto. rewrite slabs_union_length; auto. congruence.
  Qed.
  Lemma tvol_node l r v : tvol (BNode l r) = Some v -> exists a b, tvol l = Some a /\ tvol r = Some b /\ kdop_sub a v /\ kdop_sub b v.
  Proof.
    cbn. destruct (tvol l) as [a|]; [|discriminate]. destruct (tvol r) as [b|]; [|discriminate].
    unfold kdop_union. destruct (Nat.eqb_spec (length a) (length b)); [|discriminate]. intros E; injection E as <-.
    destruct (slabs_union_ub a b); auto. exists a, b; auto.
  Qed.
  Lemma tvol_leaf_sub t v : tvol t = Some v -> forall e, In e (leaves t) -> exists a, ek e = Some a /\ kdop_sub a v.
  Proof.
    revert v. induction t as [e0|l IHl r IHr]; intros v E e He.
    - cbn in He. destruct He as [<-|[]]. exists v; split; auto. apply kdop_sub_refl.
    - destruct (tvol_node _ _ _ E) as (a & b & Ea & Eb & Sa & Sb). cbn in He. apply in_app_or in He. destruct He as [He|He].
      + destruct (IHl _ Ea e He) as (x & Ex & Sx). exists x; split; auto. eapply kdop_sub_trans; eauto.
      + destruct (IHr _ Eb e He) as (x & Ex & Sx). exists x; split; auto. eapply kdop_sub_trans; eauto.
  Qed.

  Lemma repr_fun ns i t ix t' ix' : repr ns i t ix -> repr ns i t' ix' -> t = t' /\ ix = ix'.
  Proof.
    intros H. revert t' ix'. induction H as [i n e H1 H2 H3 H4|i n l r tl tr ixl ixr nl nr H1 H2 H3 H4 H5 H6 H7 H8 H9 Hl IHl Hr IHr];
      intros t' ix' H'; inversion H' as [i' n' e' G1 G2 G3 G4|i' n' l' r' tl' tr' ixl' ixr' nl' nr' G1 G2 G3 G4 G5 G6 G7 G8 G9 Gl Gr]; subst i'.
    - rewrite H1 in G1. injection G1 as <-. split; auto. congruence.
    - rewrite H1 in G1. injection G1 as <-. subst r'. lia.
    - rewrite H1 in G1. injection G1 as <-. subst r. lia.
    - rewrite H1 in G1. injection G1 as <-. assert (l' = l) by lia. subst l'. assert (Gr' : repr ns r tr' ixr') by (subst; exact Gr).
      destruct (IHl _ _ Gl). destruct (IHr _ _ Gr'). subst. auto.
  Qed.

  (** well-formed array: each node is unused or the root of a tree over existing elements *)
  Definition wf_nodes (ns : list node) : Prop :=
    forall j n, nth_error ns j = Some n -> is_undefined n = true \/ exists t ix, repr ns j t ix /\ tree_in t.
  Definition fitted_from (i : nat) (ns : list node) : Prop :=
    forall j t ix, (i <= j)%nat -> repr ns j t ix -> exists n, nth_error ns j = Some n /\ n_volume n = tvol t.
  Definition same_array (ns ns' : list node) : Prop := length ns = length ns' /\ forall j, same_struct (nth_error ns j) (nth_error ns' j).
  Lemma same_array_refl ns : same_array ns ns. Proof. split; auto. intros; apply same_struct_refl. Qed.
  Lemma same_array_sym a b : same_array a b -> same_array b a. Proof. intros [H1 H2]; split; auto. intros; apply same_struct_sym; auto. Qed.
  Lemma same_array_trans a b c : same_array a b -> same_array b c -> same_array a c.
  Proof. intros [H1 H2] [K1 K2]; split; [congruence|]. intros; eapply same_struct_trans; eauto. Qed.
  Lemma same_array_repr ns ns' i t ix : same_array ns ns' -> repr ns i t ix -> repr ns' i t ix.
  Proof. intros [_ H] R. eapply repr_frame; eauto. Qed.
  Lemma same_array_upd ns i n v : nth_error ns i = Some n -> same_array ns (list_upd ns i (mkN v (n_parent n) (n_start n) (n_end n))).
  Proof.
    intros H. split; [rewrite list_upd_length; auto|]. intros j. destruct (Nat.eq_dec j i) as [->|N].
    - rewrite list_upd_same by (eapply nth_error_lt; eauto). rewrite H. cbn; auto.
    - rewrite list_upd_other by auto. apply same_struct_refl.
  Qed.
  Lemma undefined_same n n' : n_parent n = n_parent n' -> n_start n = n_start n' -> n_end n = n_end n' -> is_undefined n = is_undefined n'.
  Proof. unfold is_undefined. intros -> -> ->. auto. Qed.
  Lemma wf_same ns ns' : same_array ns ns' -> wf_nodes ns -> wf_nodes ns'.
  Proof.
    intros S W j n' E. destruct S as [Sl Sj]. pose proof (Sj j) as Hj. rewrite E in Hj.
    destruct (nth_error ns j) as [n|] eqn:En; [|contradiction]. destruct Hj as (A & B & C).
    destruct (W j n En) as [U|(t & ix & R & I)].
    - left. rewrite <- U. symmetry. apply undefined_same; auto.
    - right. exists t, ix. split; auto. eapply same_array_repr; eauto. split; auto.
  Qed.
  Lemma repr_not_undefined ns j t ix n : repr ns j t ix -> nth_error ns j = Some n -> is_undefined n = false.
  Proof.
    intros R E. inversion R; subst; match goal with H : nth_error ns j = Some ?m |- _ => rewrite H in E; injection E as -> end;
    unfold is_undefined, UNDEFINED; destruct (Z.eqb_spec (n_start n) (-1)); try lia; rewrite andb_false_r; auto.
  Qed.
  Lemma repr_tree_in_child ns j t ix : wf_nodes ns -> repr ns j t ix -> tree_in t.
  Proof.
    intros W R. destruct (nth_error ns j) as [m|] eqn:E.
    - destruct (W j m E) as [U|(t' & ix' & R' & I)].
      + rewrite (repr_not_undefined _ _ _ _ _ R E) in U. discriminate.
      + destruct (repr_fun _ _ _ _ _ _ R R'). subst; auto.
    - inversion R; congruence.
  Qed.

  Lemma refit_node_ok ns i : wf_nodes ns -> (i < length ns)%nat -> fitted_from (S i) ns ->
    exists ns', refit_node V T K env ns i = Some ns' /\ same_array ns ns' /\ fitted_from i ns'.
  Proof.
    intros W Hi Fit. unfold refit_node. destruct (nth_error ns i) as [n|] eqn:En; [|apply nth_error_None in En; lia].
    destruct (W i n En) as [U|(t & ix & R & I)].
    - rewrite U. exists ns. split; auto. split; [apply same_array_refl|]. intros j t ix Hj R.
      destruct (Nat.eq_dec j i) as [->|]; [|apply (Fit j t ix); auto; lia].
      rewrite (repr_not_undefined _ _ _ _ _ R En) in U. discriminate.
    - rewrite (repr_not_undefined _ _ _ _ _ R En).
      assert (Done : forall v, tvol t = Some v -> fitted_from i (list_upd ns i (mkN (Some v) (n_parent n) (n_start n) (n_end n)))).
      { intros v Ev j t' ix' Hj R'.
        assert (R0 : repr ns j t' ix') by (eapply same_array_repr; [apply same_array_sym, same_array_upd; exact En|exact R']).
        destruct (Nat.eq_dec j i) as [->|N].
        - rewrite list_upd_same by auto. eexists; split; eauto. cbn. destruct (repr_fun _ _ _ _ _ _ R R0). subst; auto.
        - rewrite list_upd_other by auto. apply (Fit j t' ix'); auto. lia. }
      destruct (tvol_some t I) as (v & Ev & Lv).
      inversion R as [i0 n0 e H1 H2 H3 H4|i0 n0 l r tl tr ixl ixr nl nr H1 H2 H3 H4 H5 H6 H7 H8 H9 Hl Hr]; subst i0;
        rewrite En in H1; injection H1 as <-.
      + assert (is_leaf n = true) as ->.
        { unfold is_leaf, UNDEFINED. rewrite H2, H3, Z.eqb_refl. destruct (Z.eqb_spec e (-1)); [lia|auto]. }
        subst t. pose proof Ev as Ev'. cbn [tvol] in Ev'. unfold ek, elem_kdop in Ev'. rewrite <- H2 in Ev'.
        destruct (py_get T (n_start n)) as [el|]; [|discriminate]. destruct (gather V el) as [vs|]; [|discriminate]. rewrite Ev'.
        eexists; split; [reflexivity|]. split; [apply same_array_upd; auto|]. apply Done; auto.
      + assert (is_leaf n = false) as ->.
        { unfold is_leaf. rewrite H2, H3. destruct (Z.eqb_spec (Z.of_nat l) (Z.of_nat r)); [lia|]. apply andb_false_r. }
        rewrite H2, H3, !py_get_nat, H6, H8. subst t.
        destruct (tvol_node _ _ _ Ev) as (a & b & Ea & Eb & _).
        destruct (Fit l tl ixl) as (nl' & E1 & E2); [lia|auto|]. destruct (Fit r tr ixr) as (nr' & E3 & E4); [lia|auto|].
        rewrite H6 in E1. injection E1 as <-. rewrite H8 in E3. injection E3 as <-.
        rewrite E2, E4, Ea, Eb. pose proof Ev as Ev'. cbn [tvol] in Ev'. rewrite Ea, Eb in Ev'. rewrite Ev'.
        eexists; split; [reflexivity|]. rewrite <- H2, <- H3. split; [apply same_array_upd; auto|]. apply Done; auto.
  Qed.
  Lemma refit_from_ok : forall i ns, wf_nodes ns -> (i <= length ns)%nat -> fitted_from i ns ->
    exists ns', refit_from V T K env i ns = Some ns' /\ same_array ns ns' /\ fitted_from 0 ns'.
  Proof.
    induction i as [|i IH]; intros ns W Hi Fit; cbn [refit_from].
    - exists ns. split; auto. split; auto using same_array_refl.
    - destruct (refit_node_ok ns i W) as (ns1 & E1 & S1 & F1); [lia|auto|]. rewrite E1.
      destruct (IH ns1) as (ns2 & E2 & S2 & F2); auto.
      + eapply wf_same; eauto.
      + destruct S1; lia.
      + exists ns2. split; auto. split; auto. eapply same_array_trans; eauto.
  Qed.
  Lemma fitted_vacuous ns : fitted_from (length ns) ns.
  Proof. intros j t ix Hj R. pose proof (repr_in_range _ _ _ _ R j (repr_root _ _ _ _ R)). lia. Qed.

  (** chunk level *)
  Lemma chunk_shape_wf N st t : chunk_shape N st t -> tree_in t -> wf_nodes (st_nodes st).
  Proof.
    intros (_ & ix & R & ND & Hin & Und) I j n E. destruct (in_dec Nat.eq_dec j ix) as [Hj|Hj]; [|left; eauto].
    right. destruct (repr_sub _ _ _ _ R j Hj) as (tj & ixj & Rj & _ & Lj). exists tj, ixj. split; auto. intros e He; auto.
  Qed.
  Lemma refit_sub_tree_ok N st t : chunk_shape N st t -> tree_in t ->
    exists st', refit_sub_tree V T K env st = Some st' /\ chunk_shape N st' t /\ fitted_from 0 (st_nodes st') /\ wf_nodes (st_nodes st') /\ st_height st' = st_height st.
  Proof.
    intros Sh I. pose proof (chunk_shape_wf _ _ _ Sh I) as W. unfold refit_sub_tree.
    destruct (refit_from_ok (length (st_nodes st)) (st_nodes st) W) as (ns' & E & S & F); [lia|apply fitted_vacuous|].
    rewrite E. eexists; split; [reflexivity|]. cbn [st_nodes st_height]. split; [|split; [auto|split; [eapply wf_same; eauto|auto]]].
    destruct Sh as (Hl & ix & R & ND & Hin & Und). split; cbn [st_nodes]; [destruct S; congruence|].
    exists ix. split; [eapply same_array_repr; eauto|]. split; auto. split; auto.
    intros j n Ej Nj. destruct S as [_ Sj]. specialize (Sj j). rewrite Ej in Sj.
    destruct (nth_error (st_nodes st) j) as [m|] eqn:Em; [|contradiction]. destruct Sj as (A & B & C).
    rewrite <- (Und j m Em Nj). symmetry; apply undefined_same; auto.
  Qed.
  Lemma fitted_chunk st : wf_nodes (st_nodes st) -> fitted_from 0 (st_nodes st) -> chunk_fitted V T K env st.
  Proof.
    intros W F j t ix R. destruct (F j t ix) as (n & E & Ev); [lia|auto|].
    destruct (tvol_some t) as (v & Et & _); [eapply repr_tree_in_child; eauto|]. exists n, v.
    rewrite Et in Ev. repeat split; auto.
    - intros e ->. exact Et.
    - clear n E Ev. revert v Et. induction R as [i n e H1 H2 H3 H4|i n l r tl tr ixl ixr nl nr H1 H2 H3 H4 H5 H6 H7 H8 H9 Hl IHl Hr IHr]; intros v Et d nd Hd Ed.
      + destruct Hd as [<-|[]]. destruct (F i (BLeaf e) [i]) as (m & Em & Ev); [lia|apply (repr_leaf _ i n); auto|].
        rewrite Em in Ed. injection Ed as <-. exists v. split; [congruence|apply kdop_sub_refl].
      + destruct (tvol_node _ _ _ Et) as (a & b & Ea & Eb & Sa & Sb). destruct Hd as [<-|Hd].
        * destruct (F i (BNode tl tr) (i :: ixl ++ ixr)) as (m & Em & Ev); [lia|apply (repr_node _ i n l r) with (nl:=nl) (nr:=nr); auto|].
          rewrite Em in Ed. injection Ed as <-. exists v. split; [congruence|apply kdop_sub_refl].
        * apply in_app_or in Hd. destruct Hd as [Hd|Hd].
          -- destruct (IHl a Ea d nd Hd Ed) as (x & Ex & Sx). exists x; split; auto. eapply kdop_sub_trans; eauto.
          -- destruct (IHr b Eb d nd Hd Ed) as (x & Ex & Sx). exists x; split; auto. eapply kdop_sub_trans; eauto.
  Qed.
  (** root *)
  Lemma root_union_ok N : forall chunks ts acc, Forall2 (chunk_shape N) chunks ts -> Forall tree_in ts ->
    Forall (fun st => fitted_from 0 (st_nodes st)) chunks -> length acc = K ->
    exists root, root_union acc chunks = Some root /\ kdop_sub acc root /\ Forall (fun t => exists v, tvol t = Some v /\ kdop_sub v root) ts.
  Proof.
    induction chunks as [|st chunks IH]; intros ts acc Sh I F La; inversion Sh as [|? t ? ts' Sh1 Sh2]; subst; cbn [root_union].
    - exists acc; split; auto. split; auto using kdop_sub_refl.
    - inversion I as [|? ? It I']; subst. inversion F as [|? ? Ft F']; subst. destruct Sh1 as (_ & ix & R & _).
      destruct (Ft 0%nat t ix) as (n & E & Ev); [lia|auto|]. rewrite E.
      destruct (tvol_some t It) as (v & Et & Lv). rewrite Ev, Et. unfold kdop_union. 
 replace (length acc =? length v)%nat with true by (symmetry; apply Nat.eqb_eq; congruence).
      destruct (slabs_union_ub acc v) as [U1 U2]; [congruence|].
      destruct (IH ts' (slabs_union acc v)) as (root & Er & Sr & Fr); auto.
      { rewrite slabs_union_length; congruence. }
      exists root. split; auto. split; [eapply kdop_sub_trans; eauto|]. constructor; auto.
      exists v. split; auto. eapply kdop_sub_trans; eauto.
  Qed.
  (** everything known about a tree after refit *)
  Definition bvh_ok (N : Z) (ts : list btree) (tr : tree) : Prop :=
    Forall2 (chunk_shape N) (tr_chunks tr) ts /\ Forall tree_in ts /\ Forall (fun st => fitted_from 0 (st_nodes st) /\ wf_nodes (st_nodes st)) (tr_chunks tr) /\ exists root, tr_root tr = Some root /\ length root = K /\ Forall (fun t => exists v, tvol t = Some v /\ kdop_sub v root) ts.
  Lemma refit_bvh_ok N ts tr : Forall2 (chunk_shape N) (tr_chunks tr) ts -> Forall tree_in ts ->
    exists tr', refit_bvh V T tr K env = Some tr' /\ bvh_ok N ts tr' /\ map st_height (tr_chunks tr') = map st_height (tr_chunks tr).
  Proof.
    intros Sh I. unfold refit_bvh.
    assert (G : exists chunks, map_opt (refit_sub_tree V T K env) (tr_chunks tr) = Some chunks /\ Forall2 (chunk_shape N) chunks ts /\ Forall (fun st => fitted_from 0 (st_nodes st) /\ wf_nodes (st_nodes st)) chunks /\ map st_height chunks = map st_height (tr_chunks tr)).
    { clear - Sh I HK HT. induction Sh as [|st t sts ts H1 H2 IH]; [exists []; cbn; auto|].
      inversion I; subst. destruct IH as (cs & E & A & B & C); auto.
      destruct (refit_sub_tree_ok N st t H1) as (st' & E' & A' & B' & B'' & C'); auto.
      exists (st' :: cs). cbn. rewrite E', E, C, C'. split; [reflexivity|]. split; [constructor; auto|]. split; [constructor; auto|reflexivity]. }
    destruct G as (chunks & E & A & B & C). rewrite E.
    destruct (root_union_ok N chunks ts (kdop_init K) A I) as (root & Er & Sr & Fr).
    { eapply Forall_impl; [|exact B]. cbn; tauto. }
    { apply repeat_length. }
    rewrite Er. eexists; split; [reflexivity|]. cbn. split; auto.
    split; [exact A|]. split; [exact I|]. split; [exact B|]. exists root. cbn. split; auto. split; auto.
    rewrite <- (kdop_sub_length _ _ Sr). apply repeat_length.
  Qed.
End Refit.
Lemma tree_in_zseq T ts : flat_map leaves ts = zseq 0 (length T) -> Forall (tree_in T) ts.
Proof.
  intros H. apply Forall_forall. intros t Ht e He.
  assert (In e (zseq 0 (length T))) by (rewrite <- H; apply in_flat_map; eauto). apply in_zseq in H0. lia.
Qed.
Lemma make_bvh_ok V T K N env : supported_K K -> valid_mesh V T -> (1 <= N)%Z ->
  exists tr ts, make_bvh V T K N env = Some tr /\ bvh_ok V T K env N ts tr /\ flat_map leaves ts = zseq 0 (length T) /\ Forall2 (fun st t => fst (st_height st) = bheight t) (tr_chunks tr) ts.
Proof.
  intros HK HT HN. unfold make_bvh. destruct (make_chunks_ok N (length T) HN) as (chunks & ts & E & Sh & Lv & Hh).
  destruct (Z.eqb_spec (Z.quot (N + 1) 2) 0) as [H0|_].
  { exfalso. rewrite Z.quot_div_nonneg in H0 by lia. assert (1 <= (N + 1) / 2)%Z by (apply Z.div_le_lower_bound; lia). lia. }
  rewrite E. destruct (refit_bvh_ok V T K env HK HT N ts (mkTree None chunks)) as (tr & Er & Ok & Hm); auto using tree_in_zseq.
  exists tr, ts. repeat split; auto; try apply Ok. cbn in Hm.
  clear - Hm Hh. revert Hm. generalize (tr_chunks tr) as cs. induction Hh as [|st t sts ts H Hh IH]; intros [|c cs] Hm; cbn in Hm; try discriminate; constructor.
  - injection Hm as E1 E2. congruence.
  - apply IH. injection Hm; auto.
Qed.
