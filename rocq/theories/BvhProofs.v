From Verif Require Import Base BvhModel BvhSpec KdopProofs.
From Coq Require Import Permutation.
Open Scope R_scope.

(** ** Python list access *)
Lemma py_idx_nat {A} (l : list A) i : (i < length l)%nat -> py_idx l (Z.of_nat i) = Some i.
Proof.
  intros H. unfold py_idx. destruct (Z.ltb_spec (Z.of_nat i) 0); [lia|]. cbv zeta.
  destruct (Z.ltb_spec (Z.of_nat i) 0); [lia|]. destruct (Z.leb_spec (Z.of_nat (length l)) (Z.of_nat i)); [lia|].
  cbn. rewrite Nat2Z.id. auto.
Qed.
Lemma py_get_nat {A} (l : list A) i : py_get l (Z.of_nat i) = nth_error l i.
Proof.
  unfold py_get. destruct (Nat.lt_ge_cases i (length l)).
  - rewrite py_idx_nat; auto.
  - unfold py_idx. destruct (Z.ltb_spec (Z.of_nat i) 0); [lia|]. cbv zeta.
    destruct (Z.leb_spec (Z.of_nat (length l)) (Z.of_nat i)); [|lia]. rewrite orb_true_r.
    symmetry; apply nth_error_None; auto.
Qed.
Lemma py_get_pos {A} (l : list A) z : (0 <= z)%Z -> py_get l z = nth_error l (Z.to_nat z).
Proof. intros H. rewrite <- (Z2Nat.id z) at 1 by lia. apply py_get_nat. Qed.
Lemma list_upd_length {A} (l : list A) : forall k x, length (list_upd l k x) = length l.
Proof. induction l; intros [|k] x; cbn; auto. Qed.
Lemma list_upd_same {A} (l : list A) : forall k x, (k < length l)%nat -> nth_error (list_upd l k x) k = Some x.
Proof. induction l; intros [|k] x H; cbn in *; auto; try lia. apply IHl; lia. Qed.
Lemma list_upd_other {A} (l : list A) : forall k j x, j <> k -> nth_error (list_upd l k x) j = nth_error l j.
Proof. induction l; intros [|k] [|j] x H; cbn; auto; try contradiction. Qed.
Lemma nth_error_lt {A} (l : list A) i x : nth_error l i = Some x -> (i < length l)%nat.
Proof. intros H. apply nth_error_Some. congruence. Qed.

Lemma set_range_ok ns i s e n : nth_error ns i = Some n ->
  exists ns', set_range ns (Z.of_nat i) s e = Some ns' /\ length ns' = length ns /\
    nth_error ns' i = Some (mkN (n_volume n) (n_parent n) s e) /\ forall j, j <> i -> nth_error ns' j = nth_error ns j.
Proof.
  intros H. unfold set_range. rewrite py_get_nat, H. unfold py_set. rewrite py_idx_nat by (eapply nth_error_lt; eauto).
  eexists; split; eauto. rewrite list_upd_length, list_upd_same by (eapply nth_error_lt; eauto).
  repeat split; auto. intros; apply list_upd_other; auto.
Qed.
Lemma set_parent_ok ns i p n : nth_error ns i = Some n ->
  exists ns', set_parent ns (Z.of_nat i) p = Some ns' /\ length ns' = length ns /\
    nth_error ns' i = Some (mkN (n_volume n) p (n_start n) (n_end n)) /\ forall j, j <> i -> nth_error ns' j = nth_error ns j.
Proof.
  intros H. unfold set_parent. rewrite py_get_nat, H. unfold py_set. rewrite py_idx_nat by (eapply nth_error_lt; eauto).
  eexists; split; eauto. rewrite list_upd_length, list_upd_same by (eapply nth_error_lt; eauto).
  repeat split; auto. intros; apply list_upd_other; auto.
Qed.

(** ** structure frame *)
Definition same_struct (a b : option node) : Prop :=
  match a, b with
  | Some x, Some y => n_parent x = n_parent y /\ n_start x = n_start y /\ n_end x = n_end y
  | None, None => True
  | _, _ => False
  end.
Lemma same_struct_refl a : same_struct a a. Proof. destruct a; cbn; auto. Qed.
Lemma same_struct_sym a b : same_struct a b -> same_struct b a. Proof. destruct a, b; cbn; intuition. Qed.
Lemma same_struct_trans a b c : same_struct a b -> same_struct b c -> same_struct a c.
Proof. destruct a, b, c; cbn; intuition congruence. Qed.
Lemma repr_root ns i t ix : repr ns i t ix -> In i ix.
Proof. destruct 1; cbn; auto. Qed.
Lemma repr_frame ns ns' i t ix : repr ns i t ix -> (forall j, In j ix -> same_struct (nth_error ns j) (nth_error ns' j)) -> repr ns' i t ix.
Proof.
  induction 1 as [i n e H1 H2 H3 H4|i n l r tl tr ixl ixr nl nr H1 H2 H3 H4 H5 H6 H7 H8 H9 Hl IHl Hr IHr]; intros F.
  - pose proof (F i (or_introl eq_refl)) as S. rewrite H1 in S. destruct (nth_error ns' i) as [n'|] eqn:E; [|contradiction].
    destruct S as (S1 & S2 & S3). apply repr_leaf with n'; auto; congruence.
  - pose proof (F i (or_introl eq_refl)) as S. rewrite H1 in S. destruct (nth_error ns' i) as [n'|] eqn:E; [|contradiction].
    assert (Fl : same_struct (nth_error ns l) (nth_error ns' l)).
    { apply F. right. apply in_or_app; left. eapply repr_root; eauto. }
    assert (Fr : same_struct (nth_error ns r) (nth_error ns' r)).
    { apply F. right. apply in_or_app; right. eapply repr_root; eauto. }
    rewrite H6 in Fl. rewrite H8 in Fr.
    destruct (nth_error ns' l) as [nl'|] eqn:El; [|contradiction]. destruct (nth_error ns' r) as [nr'|] eqn:Er; [|contradiction].
    destruct S as (S1 & S2 & S3), Fl as (L1 & _), Fr as (R1 & _).
    apply repr_node with (n := n') (l := l) (r := r) (nl := nl') (nr := nr'); auto; try congruence.
    + apply IHl. intros j Hj. apply F. right. apply in_or_app; auto.
    + apply IHr. intros j Hj. apply F. right. apply in_or_app; auto.
Qed.
Lemma repr_size ns i t ix : repr ns i t ix -> length ix = bsize t.
Proof. induction 1; cbn; auto. rewrite app_length. lia. Qed.
Lemma repr_in_range ns i t ix : repr ns i t ix -> forall j, In j ix -> (j < length ns)%nat.
Proof.
  induction 1; intros j Hj.
  - destruct Hj as [<-|[]]. eapply nth_error_lt; eauto.
  - destruct Hj as [<-|Hj]; [eapply nth_error_lt; eauto|]. apply in_app_or in Hj. destruct Hj; auto.
Qed.
(** every index of a tree is itself the root of a tree *)
Lemma repr_sub ns i t ix : repr ns i t ix -> forall j, In j ix ->
  exists tj ixj, repr ns j tj ixj /\ incl ixj ix /\ incl (leaves tj) (leaves t).
Proof.
  induction 1 as [i n e H1 H2 H3 H4|i n l r tl tr ixl ixr nl nr H1 H2 H3 H4 H5 H6 H7 H8 H9 Hl IHl Hr IHr]; intros j Hj.
  - destruct Hj as [<-|[]]. exists (BLeaf e), [i]. repeat split; auto using incl_refl. eapply repr_leaf; eauto.
  - destruct Hj as [<-|Hj].
    + exists (BNode tl tr), (i :: ixl ++ ixr). repeat split; auto using incl_refl. eapply repr_node; eauto.
    + apply in_app_or in Hj. destruct Hj as [Hj|Hj].
      * destruct (IHl j Hj) as (tj & ixj & R & I1 & I2). exists tj, ixj. repeat split; auto.
        -- intros x Hx. right. apply in_or_app; auto.
        -- intros x Hx. cbn. apply in_or_app; auto.
      * destruct (IHr j Hj) as (tj & ixj & R & I1 & I2). exists tj, ixj. repeat split; auto.
        -- intros x Hx. right. apply in_or_app; auto.
        -- intros x Hx. cbn. apply in_or_app; auto.
Qed.

(** ** zseq *)
Lemma seq_map_shift k m : seq k m = map (fun j => (k + j)%nat) (seq 0 m).
Proof.
  revert k. induction m as [|m IH]; intros k; cbn; auto. f_equal; [lia|]. rewrite (IH (S k)), <- seq_shift, map_map. apply map_ext; intros; lia.
Qed.
Lemma zseq_app a n m : zseq a (n + m) = zseq a n ++ zseq (a + Z.of_nat n) m.
Proof.
  unfold zseq. rewrite seq_app, map_app. f_equal. cbn [plus]. rewrite (seq_map_shift n m), map_map. apply map_ext; intros; lia.
Qed.
Lemma in_zseq a n x : In x (zseq a n) <-> (a <= x < a + Z.of_nat n)%Z.
Proof.
  unfold zseq. rewrite in_map_iff. split.
  - intros (k & <- & H). apply in_seq in H. lia.
  - intros H. exists (Z.to_nat (x - a)). split; [lia|]. apply in_seq. lia.
Qed.
Lemma NoDup_zseq a n : NoDup (zseq a n).
Proof. unfold zseq. apply FinFun.Injective_map_NoDup; [intros x y; lia|apply seq_NoDup]. Qed.

(** ** _make_sub_tree *)
Lemma make_sub_tree_ok : forall fuel i f first n ns nd,
  (1 <= n)%nat -> (n <= fuel)%nat -> (0 <= first)%Z ->
  (i < f)%nat -> (f + 2 * (n - 1) <= length ns)%nat -> nth_error ns i = Some nd ->
  exists h ns' t ix nd',
    make_sub_tree fuel (Z.of_nat i) (Z.of_nat f) first (first + Z.of_nat n - 1)%Z ns =
      Some (h, Z.of_nat (f + 2 * (n - 1)), ns') /\
    length ns' = length ns /\
    repr ns' i t ix /\ leaves t = zseq first n /\ bheight t = h /\
    Permutation ix (i :: seq f (2 * (n - 1))) /\
    nth_error ns' i = Some nd' /\ n_parent nd' = n_parent nd /\ n_volume nd' = n_volume nd /\
    (forall j, j <> i -> (j < f \/ f + 2 * (n - 1) <= j)%nat -> nth_error ns' j = nth_error ns j).
Proof.
  induction fuel as [|fuel IH]; intros i f first n ns nd Hn Hf Hfirst Hif Hlen Hi; [lia|].
  cbn [make_sub_tree]. replace (first + Z.of_nat n - 1 - first + 1)%Z with (Z.of_nat n) by lia.
  destruct (Z.ltb_spec 1 (Z.of_nat n)) as [H1|H1].
  - destruct (set_range_ok ns i (Z.of_nat f) (Z.of_nat f + 1) nd Hi) as (ns1 & E1 & L1 & G1 & F1). rewrite E1.
    destruct (nth_error ns1 f) as [ndl|] eqn:Gl; [|apply nth_error_None in Gl; lia].
    destruct (set_parent_ok ns1 f (Z.of_nat i) ndl Gl) as (ns2 & E2 & L2 & G2 & F2). rewrite E2.
    destruct (nth_error ns2 (S f)) as [ndr|] eqn:Gr; [|apply nth_error_None in Gr; lia].
    replace (Z.of_nat f + 1)%Z with (Z.of_nat (S f)) by lia.
    destruct (set_parent_ok ns2 (S f) (Z.of_nat i) ndr Gr) as (ns3 & E3 & L3 & G3 & F3). rewrite E3.
    set (mid := ((first + (first + Z.of_nat n - 1)) / 2)%Z).
    assert (Hmid : (first <= mid < first + Z.of_nat n - 1)%Z).
    { unfold mid. split; [apply Z.div_le_lower_bound; lia|apply Z.div_lt_upper_bound; lia]. }
    set (nl := Z.to_nat (mid - first + 1)). set (nr := (n - nl)%nat).
    assert (Hnl : (1 <= nl)%nat /\ (nl < n)%nat) by (unfold nl; lia).
    replace mid with (first + Z.of_nat nl - 1)%Z by (unfold nl; lia).
    replace (Z.of_nat f + 2)%Z with (Z.of_nat (f + 2)) by lia.
    destruct (IH f (f + 2)%nat first nl ns3 (mkN (n_volume ndl) (Z.of_nat i) (n_start ndl) (n_end ndl)))
      as (hl & ns4 & tl & ixl & ndl' & E4 & L4 & R4 & V4 & B4 & P4 & G4 & Gp4 & _ & F4); try lia.
    { rewrite F3 by lia. auto. }
    rewrite E4.
    replace (first + Z.of_nat nl - 1 + 1)%Z with (first + Z.of_nat nl)%Z by lia.
    replace (first + Z.of_nat n - 1)%Z with (first + Z.of_nat nl + Z.of_nat nr - 1)%Z by (unfold nr; lia).
    destruct (IH (S f) (f + 2 + 2 * (nl - 1))%nat (first + Z.of_nat nl)%Z nr ns4 (mkN (n_volume ndr) (Z.of_nat i) (n_start ndr) (n_end ndr)))
      as (hr & ns5 & tr & ixr & ndr' & E5 & L5 & R5 & V5 & B5 & P5 & G5 & Gp5 & _ & F5); try (unfold nr; lia).
    { rewrite F4 by lia. auto. }
    rewrite E5.
    assert (Hcount : (f + 2 + 2 * (nl - 1) + 2 * (nr - 1) = f + 2 * (n - 1))%nat) by (unfold nr; lia).
    assert (Hi5 : nth_error ns5 i = Some (mkN (n_volume nd) (n_parent nd) (Z.of_nat f) (Z.of_nat (S f)))).
    { rewrite F5 by lia. rewrite F4 by lia. rewrite F3 by lia. rewrite F2 by lia. rewrite G1.
      do 2 f_equal. lia. }
    assert (Hl5 : nth_error ns5 f = Some ndl') by (rewrite F5 by lia; auto).
    assert (Rl5 : repr ns5 f tl ixl).
    { eapply repr_frame; [exact R4|]. intros j Hj. apply (Permutation_in _ P4) in Hj.
      rewrite F5; [apply same_struct_refl| |]; destruct Hj as [<-|Hj]; try lia; apply in_seq in Hj; lia. }
    exists (Z.max hl hr + 1)%Z, ns5, (BNode tl tr), (i :: ixl ++ ixr), (mkN (n_volume nd) (n_parent nd) (Z.of_nat f) (Z.of_nat (S f))).
    rewrite Hcount. repeat split; auto.
    + lia.
    + eapply repr_node with (l := f) (r := S f); eauto; rewrite ?Gp4, ?Gp5; auto.
    + cbn [leaves]. rewrite V4, V5, <- zseq_app. f_equal. unfold nr; lia.
    + cbn [bheight]. congruence.
    + constructor. rewrite P4, P5. replace (2 * (n - 1))%nat with (2 + (2 * (nl - 1) + 2 * (nr - 1)))%nat by (unfold nr; lia).
      rewrite seq_app. cbn [seq app]. constructor. rewrite seq_app.
      replace (f + 2)%nat with (S (S f)) by lia. rewrite <- Permutation_middle. reflexivity.
    + intros j Hj Hr'. rewrite F5 by lia. rewrite F4 by lia. rewrite F3 by lia. rewrite F2 by lia. apply F1; auto.
  - assert (n = 1%nat) by lia. subst n.
    destruct (set_range_ok ns i first first nd Hi) as (ns1 & E1 & L1 & G1 & F1). rewrite E1.
    exists 0%Z, ns1, (BLeaf first), [i], (mkN (n_volume nd) (n_parent nd) first first).
    repeat split; auto.
    + do 2 f_equal. f_equal. lia.
    + apply repr_leaf with (mkN (n_volume nd) (n_parent nd) first first); auto.
    + cbn. unfold zseq; cbn. f_equal; lia.
Qed.

(** ** one chunk and all chunks *)
Lemma map_opt_Forall2 {A B} (f : A -> option B) (P : A -> B -> Prop) l :
  (forall a, In a l -> exists b, f a = Some b /\ P a b) -> exists bs, map_opt f l = Some bs /\ Forall2 P l bs.
Proof.
  induction l as [|a l IH]; intros H; [exists []; cbn; auto|].
  destruct (H a (or_introl eq_refl)) as (b & E & Pb). destruct IH as (bs & Es & Ps); [intros; apply H; cbn; auto|].
  exists (b :: bs). cbn. rewrite E, Es. auto.
Qed.
Lemma map_opt_inv {A B} (f : A -> option B) l : forall bs, map_opt f l = Some bs -> Forall2 (fun a b => f a = Some b) l bs.
Proof.
  induction l as [|a l IH]; cbn; intros bs E; [injection E as <-; constructor|].
  destruct (f a) eqn:Ea; [|discriminate]. destruct (map_opt f l) eqn:El; [|discriminate]. injection E as <-. constructor; auto.
Qed.
Lemma repeat_undefined N j n : nth_error (repeat node_init N) j = Some n -> n = node_init.
Proof. intros H. apply nth_error_In in H. apply repeat_spec in H. auto. Qed.
Definition chunk_len (L : Z) (M : nat) (c : nat) : nat := Z.to_nat (Z.min L (Z.of_nat M - Z.of_nat c * L)).
Lemma make_chunk_ok N M c : (1 <= N)%Z -> let L := Z.quot (N + 1) 2 in
  (Z.of_nat c * L < Z.of_nat M)%Z ->
  exists st t, make_chunk N L (Z.of_nat M) c = Some st /\ chunk_shape N st t /\
    leaves t = zseq (Z.of_nat c * L) (chunk_len L M c) /\ fst (st_height st) = bheight t.
Proof.
  intros HN L HM. assert (HL : (1 <= L)%Z /\ (2 * L <= N + 1)%Z).
  { unfold L. rewrite Z.quot_div_nonneg by lia. split; [apply Z.div_le_lower_bound; lia|]. apply Z.mul_div_le; lia. }
  unfold make_chunk. set (first := (Z.of_nat c * L)%Z) in *. set (last := Z.min (first + L - 1) (Z.of_nat M - 1)).
  set (n := chunk_len L M c).
  assert (Hn : (1 <= n)%nat /\ Z.of_nat n = Z.min L (Z.of_nat M - first)) by (unfold n, chunk_len; fold first; lia).
  replace last with (first + Z.of_nat n - 1)%Z by (unfold last; lia).
  replace (Z.to_nat (first + Z.of_nat n - 1 - first + 1)) with n by lia.
  assert (H0 : nth_error (repeat node_init (Z.to_nat N)) 0 = Some node_init) by (replace (Z.to_nat N) with (S (Z.to_nat N - 1)) by lia; reflexivity).
  destruct (make_sub_tree_ok (S n) 0 1 first n (repeat node_init (Z.to_nat N)) node_init)
    as (h & ns' & t & ix & nd' & E & Ln & Rp & Lv & Bh & Pm & _ & _ & _ & F); try lia; auto.
  { rewrite repeat_length. lia. }
  change 0%Z with (Z.of_nat 0) at 1. change 1%Z with (Z.of_nat 1) at 1. 
  replace (Z.of_nat 0 + Z.of_nat n - 1)%Z with (Z.of_nat n - 1)%Z in * by lia.
  rewrite E. eexists. exists t. split; [reflexivity|]. split; [|cbn; auto].
  split; cbn [st_nodes]; [rewrite Ln, repeat_length; auto|].
  exists ix. change (0%nat :: seq 1 (2 * (n - 1))) with (seq 0 (1 + 2 * (n - 1))) in Pm.
  assert (Hl : length ix = (1 + 2 * (n - 1))%nat) by (rewrite (Permutation_length Pm), seq_length; auto).
  repeat split; auto.
  - apply (Permutation_NoDup (Permutation_sym Pm)), seq_NoDup.
  - intros Hj. apply (Permutation_in _ Pm) in Hj. apply in_seq in Hj. lia.
  - intros Hj. apply (Permutation_in _ (Permutation_sym Pm)). apply in_seq. lia.
  - intros j nd Ej Nj. assert (j >= 1 + 2 * (n - 1))%nat.
    { destruct (Nat.lt_ge_cases j (1 + 2 * (n - 1))); auto. exfalso; apply Nj. apply (Permutation_in _ (Permutation_sym Pm)). apply in_seq. lia. }
    rewrite F in Ej by lia. apply repeat_undefined in Ej. subst. reflexivity.
Qed.
Lemma chunks_cover L M : (1 <= L)%Z -> forall c, (Z.of_nat c <= - ((- Z.of_nat M) / L))%Z ->
  flat_map (fun c => zseq (Z.of_nat c * L) (chunk_len L M c)) (seq 0 c) = zseq 0 (Z.to_nat (Z.min (Z.of_nat c * L) (Z.of_nat M))).
Proof.
  intros HL. induction c as [|c IH]; intros Hc.
  - replace (Z.to_nat (Z.min (Z.of_nat 0 * L) (Z.of_nat M))) with 0%nat by lia. reflexivity.
  - rewrite seq_S, flat_map_app, IH by lia. cbn [plus flat_map]. rewrite app_nil_r.
    assert (Z.of_nat c * L < Z.of_nat M)%Z.
    { assert (((- Z.of_nat M) / L) < - Z.of_nat c)%Z by lia. 
      destruct (Z.lt_ge_cases (Z.of_nat c * L) (Z.of_nat M)); auto.
      assert (- Z.of_nat c <= (- Z.of_nat M) / L)%Z by (apply Z.div_le_lower_bound; lia). lia. }
    replace (zseq (Z.of_nat c * L) (chunk_len L M c)) with (zseq (0 + Z.of_nat (Z.to_nat (Z.min (Z.of_nat c * L) (Z.of_nat M)))) (chunk_len L M c)) by (f_equal; lia).
    rewrite <- zseq_app. f_equal. unfold chunk_len. lia.
Qed.
Lemma chunk_bound L M c : (1 <= L)%Z -> (c < Z.to_nat (- ((- Z.of_nat M) / L)))%nat -> (Z.of_nat c * L < Z.of_nat M)%Z.
Proof.
  intros HL Hc. destruct (Z.lt_ge_cases (Z.of_nat c * L) (Z.of_nat M)); auto.
  assert (- Z.of_nat c <= (- Z.of_nat M) / L)%Z by (apply Z.div_le_lower_bound; lia). lia.
Qed.
Lemma make_chunks_ok N M : (1 <= N)%Z -> let L := Z.quot (N + 1) 2 in
  exists chunks ts, map_opt (make_chunk N L (Z.of_nat M)) (seq 0 (Z.to_nat (- ((- Z.of_nat M) / L)))) = Some chunks /\
    Forall2 (chunk_shape N) chunks ts /\ flat_map leaves ts = zseq 0 M /\ Forall2 (fun st t => fst (st_height st) = bheight t) chunks ts.
Proof.
  intros HN L. assert (HL : (1 <= L)%Z).
  { unfold L. rewrite Z.quot_div_nonneg by lia. apply Z.div_le_lower_bound; lia. }
  set (C := Z.to_nat (- ((- Z.of_nat M) / L))).
  destruct (map_opt_Forall2 (make_chunk N L (Z.of_nat M)) (fun c st => exists t, chunk_shape N st t /\
     leaves t = zseq (Z.of_nat c * L) (chunk_len L M c) /\ fst (st_height st) = bheight t) (seq 0 C)) as (chunks & E & F).
  { intros c Hc. apply in_seq in Hc. destruct (make_chunk_ok N M c HN) as (st & t & H1 & H2 & H3 & H4).
    - apply chunk_bound; auto. fold L C. lia.
    - exists st; split; auto. exists t; auto. }
  exists chunks. 
  assert (G : exists ts, Forall2 (chunk_shape N) chunks ts /\ flat_map leaves ts = flat_map (fun c => zseq (Z.of_nat c * L) (chunk_len L M c)) (seq 0 C) /\
     Forall2 (fun st t => fst (st_height st) = bheight t) chunks ts).
  { clear E. induction F as [|c st cs sts (t & H1 & H2 & H3) F (ts & I1 & I2 & I3)]; [exists []; auto|].
    exists (t :: ts). cbn. rewrite H2, I2. auto. }
  destruct G as (ts & G1 & G2 & G3). exists ts. split; auto. split; auto. split; auto. rewrite G2.
  assert (0 <= - ((- Z.of_nat M) / L))%Z.
  { assert ((- Z.of_nat M) / L <= 0)%Z; [|lia]. apply Z.div_le_upper_bound; lia. }
  rewrite (chunks_cover L M HL C) by (unfold C; lia). f_equal.
  assert (Z.of_nat M <= Z.of_nat C * L)%Z; [|lia].
  unfold C. rewrite Z2Nat.id by lia. pose proof (Z.mul_div_le (- Z.of_nat M) L). nia.
Qed.
