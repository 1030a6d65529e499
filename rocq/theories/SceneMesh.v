(** Reordering a mesh (create_mesh): the same vertices, the same oriented triangles, the same mass properties. *)
From Verif Require Import Base QuatModel QuatProofs VecModel VecProofs BvhModel BvhSpec GridModel VolModel RigidTypes MassModel MassSpec MassProofs MassProofs2 Prop_Mass
  ApiModel SurfModel SurfSpec SurfProofs Prop_Surface RigidTypes SceneModel SceneSpec.
From Coq Require Import Permutation Sorted.
Open Scope R_scope.

(** all indices are plain (not negative) and name vertices *)
Definition plain (V : list vec3) (T : list tri) : Prop :=
  forall i j k, In (i, j, k) T -> (0 <= i < Z.of_nat (length V))%Z /\ (0 <= j < Z.of_nat (length V))%Z /\ (0 <= k < Z.of_nat (length V))%Z.
Lemma py_get_plain (V : list vec3) i : (0 <= i < Z.of_nat (length V))%Z -> py_get V i = Some (vat V i).
Proof.
  intros H. unfold vat. destruct (py_get V i) eqn:E; auto. exfalso. replace i with (Z.of_nat (Z.to_nat i)) in E by lia. rewrite BvhProofs.py_get_nat in E. apply nth_error_None in E. lia.
Qed.
Lemma vat_nth (V : list vec3) i : (0 <= i < Z.of_nat (length V))%Z -> nth_error V (Z.to_nat i) = Some (vat V i).
Proof. intros H. rewrite <- (py_get_plain V i H). rewrite <- BvhProofs.py_get_nat. f_equal. lia. Qed.
Lemma vat_inj V i j : NoDup V -> (0 <= i < Z.of_nat (length V))%Z -> (0 <= j < Z.of_nat (length V))%Z -> vat V i = vat V j -> i = j.
Proof.
  intros ND Hi Hj E. apply Z2Nat.inj; try lia. rewrite NoDup_nth_error in ND. apply ND; [lia|]. rewrite !vat_nth by auto. congruence.
Qed.
Lemma plain_exist V T : plain V T -> indices_exist V T.
Proof. intros H i j k Hi. destruct (H i j k Hi) as (A & B & C). rewrite !py_get_plain by auto. repeat split; discriminate. Qed.
Definition points (V : list vec3) (t : tri) : list (option vec3) := let '(i, j, k) := t in [Some (vat V i); Some (vat V j); Some (vat V k)].
Lemma corners_points V T : plain V T -> corners V T = map (points V) T.
Proof.
  intros H. unfold corners. rewrite map_map. apply map_ext_in. intros [[i j] k] Hi. destruct (H i j k Hi) as (A & B & C). cbn. rewrite !py_get_plain by auto. reflexivity.
Qed.
Definition row_val (f : vec3 -> vec3 -> vec3 -> R) (row : list (option vec3)) : R := match row with [Some a; Some b; Some c] => f a b c | _ => 0 end.
Lemma perm_sum {A} (g : A -> R) l l' : Permutation l l' -> fold_right (fun a s => g a + s) 0 l = fold_right (fun a s => g a + s) 0 l'.
Proof. induction 1; cbn; lra. Qed.
Lemma mesh_sum_corners f V T : plain V T -> mesh_sum f V T = fold_right (fun row s => row_val f row + s) 0 (corners V T).
Proof.
  intros H. rewrite corners_points by auto. unfold mesh_sum. clear H. induction T as [|[[i j] k] T IH]; cbn; auto. rewrite IH. reflexivity.
Qed.
Lemma same_sum f V T V' T' : plain V T -> plain V' T' -> Permutation (corners V T) (corners V' T') -> mesh_sum f V T = mesh_sum f V' T'.
Proof. intros H H' P. rewrite !mesh_sum_corners by auto. apply perm_sum. exact P. Qed.
Lemma same_proper V T V' T' : plain V T -> plain V' T' -> Permutation (corners V T) (corners V' T') -> proper_triangles V T -> proper_triangles V' T'.
Proof.
  intros H H' P HP i j k Hi. rewrite !corners_points in P by auto.
  assert (Q : In (points V' (i, j, k)) (map (points V) T)). { apply (Permutation_in _ (Permutation_sym P)). apply in_map. exact Hi. }
  apply in_map_iff in Q as ([[a b] c] & E & Ha). injection E as E1 E2 E3. rewrite <- E1, <- E2, <- E3. apply HP. exact Ha.
Qed.
(** directed edges as pairs of points *)
Definition row_edges (row : list (option vec3)) : list (option vec3 * option vec3) := match row with [a; b; c] => [(a, b); (b, c); (c, a)] | _ => [] end.
Definition epts (V : list vec3) (e : Z * Z) : option vec3 * option vec3 := (Some (vat V (fst e)), Some (vat V (snd e))).
Lemma edges_corners V T : plain V T -> map (epts V) (directed_edges T) = flat_map row_edges (corners V T).
Proof.
  intros H. rewrite corners_points by auto. unfold directed_edges. clear H. induction T as [|[[i j] k] T IH]; cbn; auto. rewrite IH. reflexivity.
Qed.
Lemma perm_flat_map {A B} (f : A -> list B) l l' : Permutation l l' -> Permutation (flat_map f l) (flat_map f l').
Proof.
  induction 1; cbn; auto.
  - apply Permutation_app_head. auto.
  - rewrite !app_assoc. apply Permutation_app_tail. apply Permutation_app_comm.
  - etransitivity; eauto.
Qed.
Lemma edge_range V T a b : plain V T -> In (a, b) (directed_edges T) -> (0 <= a < Z.of_nat (length V))%Z /\ (0 <= b < Z.of_nat (length V))%Z.
Proof.
  intros H Hi. unfold directed_edges in Hi. apply in_flat_map in Hi as ([[i j] k] & Ht & Hi). destruct (H i j k Ht) as (A & B & C).
  cbn in Hi. destruct Hi as [E|[E|[E|[]]]]; injection E as <- <-; auto.
Qed.
Lemma nodup_map_in {A B} (f : A -> B) l : NoDup l -> (forall x y, In x l -> In y l -> f x = f y -> x = y) -> NoDup (map f l).
Proof.
  induction 1 as [|x l HX HN IH]; intros Hf; cbn; constructor.
  - intros Hi. apply in_map_iff in Hi as (y & E & Hy). apply HX. rewrite <- (Hf y x); [exact Hy|right; exact Hy|left; reflexivity|exact E].
  - apply IH. intros; apply Hf; cbn; auto.
Qed.
Lemma same_closed V T V' T' : NoDup V -> Permutation V V' -> plain V T -> plain V' T' -> Permutation (corners V T) (corners V' T') -> closed_mesh T -> closed_mesh T'.
Proof.
  intros ND PV H H' P (C1 & C2 & C3).
  assert (ND' : NoDup V') by (eapply Permutation_NoDup; eauto).
  assert (PE : Permutation (map (epts V) (directed_edges T)) (map (epts V') (directed_edges T'))). { rewrite !edges_corners by auto. apply perm_flat_map. exact P. }
  assert (INJ : forall W S, NoDup W -> plain W S -> forall x y, In x (directed_edges S) -> In y (directed_edges S) -> epts W x = epts W y -> x = y).
  { intros W S NW PW [a b] [c d] Hx Hy E. apply (edge_range W) in Hx; auto. apply (edge_range W) in Hy; auto. injection E as E1 E2. f_equal; apply (vat_inj W); tauto. }
  assert (BACK : forall a b, In (a, b) (directed_edges T') -> exists i j, In (i, j) (directed_edges T) /\ vat V i = vat V' a /\ vat V j = vat V' b).
  { intros a b Hi. assert (Q : In (epts V' (a, b)) (map (epts V) (directed_edges T))). { apply (Permutation_in _ (Permutation_sym PE)). apply in_map. exact Hi. }
    apply in_map_iff in Q as ([i j] & E & Q). injection E as E1 E2. eauto 10. }
  split; [|split].
  - apply (NoDup_map_inv (epts V')). apply (Permutation_NoDup PE). apply nodup_map_in; [exact C1|]. apply INJ; auto.
  - intros a b Hi. destruct (BACK a b Hi) as (i & j & Hij & E1 & E2). apply C2 in Hij.
    assert (Q : In (epts V (j, i)) (map (epts V') (directed_edges T'))). { apply (Permutation_in _ PE). apply in_map. exact Hij. }
    apply in_map_iff in Q as ([c d] & E & Q). injection E as F1 F2. pose proof (edge_range _ _ _ _ H' Hi). pose proof (edge_range _ _ _ _ H' Q).
    assert (c = b) by (apply (vat_inj V'); auto; [tauto|tauto|congruence]). assert (d = a) by (apply (vat_inj V'); auto; [tauto|tauto|congruence]). subst. exact Q.
  - intros a b Hi E. destruct (BACK a b Hi) as (i & j & Hij & E1 & E2). apply (C3 i j Hij). subst b. pose proof (edge_range _ _ _ _ H Hij). apply (vat_inj V); auto; [tauto|tauto|congruence].
Qed.

(** ** create_mesh *)
Lemma perm_in_length {A} (l l' : list A) : Permutation l l' -> length l = length l'.
Proof. apply Permutation_length. Qed.
Lemma sort_nonneg V T axis V' T' : axis_sort V T axis = Some (V', T') -> forall row v, In row T' -> In v row -> (0 <= v)%Z.
Proof.
  unfold axis_sort. cbv zeta. destruct (map_opt _ T) as [T1|] eqn:E; [|discriminate]. intros H. injection H as _ <-.
  intros row v Hr Hv. apply in_map_iff in Hr as (k & Ek & _). destruct (nth_in_or_default k T1 []) as [Hi|Hd].
  - rewrite Ek in Hi. destruct (ReadyProofs.map_opt_in _ _ _ _ E Hi) as (row0 & _ & E0). destruct (ReadyProofs.map_opt_in _ _ _ _ E0 Hv) as (v0 & _ & E1).
    destruct (py_get _ v0); [|discriminate]. cbn in E1. injection E1 as <-. lia.
  - rewrite Ek in Hd. rewrite Hd in Hv. destruct Hv.
Qed.
Lemma row_unit E i : mmul (mT E) E = mid -> vnorm (mrow E i) = 1.
Proof.
  intros H. destruct (orth_right E H) as [HR _]. unfold vnorm. replace (vdot (mrow E i) (mrow E i)) with 1; [apply sqrt_1|].
  unfold mmul, mT, mid in HR. cbn in HR. injection HR as A0 A1 A2 B0 B1 B2 C0 C1 C2. destruct i as [|[|i]]; cbn [mrow mrow0 mrow1 mrow2]; unfold vdot, mrow0, mrow1, mrow2; cbn; lra.
Qed.
Lemma create_mesh_ok eig V T : plain V T -> (2 <= length V)%nat -> eigen_basis (covariance V) (eig (covariance V)) ->
  exists V' T', create_mesh eig V T = Some (V', T') /\ Permutation V V' /\ plain V' T' /\ Permutation (corners V T) (corners V' T').
Proof.
  intros HP HL [_ HE]. unfold create_mesh, direction_of_most_variance.
  destruct (Nat.ltb_spec (length V) 2); [lia|]. destruct (eig (covariance V)) as [d E]. cbn [snd] in HE.
  cbv beta iota. set (axis := mrow E (argmax3 d)). assert (HN : vnorm axis = 1) by (apply row_unit; auto). unfold Reqb. destruct (Req_EM_T (vnorm axis) 0); [lra|].
  destruct (C38_axis_sort V (map RigidTypes.tri_list T) axis) as (V' & T' & ES & PV & _ & PT & _).
  { intros Z. rewrite Z in HN. unfold vnorm, vdot, vzero in HN; cbn in HN. rewrite !Rmult_0_l, !Rplus_0_l, sqrt_0 in HN. lra. }
  { intros row v Hr Hv. apply in_map_iff in Hr as ([[i j] k] & <- & Ht). destruct (HP i j k Ht) as (A & B & C). cbn in Hv.
    destruct Hv as [<-|[<-|[<-|[]]]]; rewrite py_get_plain by auto; discriminate. }
  rewrite ES. fold (corners V T) in PT.
  assert (ROW : forall row, In row T' -> exists a b c, row = [a; b; c] /\ (0 <= a < Z.of_nat (length V'))%Z /\ (0 <= b < Z.of_nat (length V'))%Z /\ (0 <= c < Z.of_nat (length V'))%Z).
  { intros row Hr. assert (Q : In (map (py_get V') row) (corners V T)). { apply (Permutation_in _ (Permutation_sym PT)). apply (in_map (map (py_get V'))). exact Hr. }
    rewrite corners_points in Q by auto. apply in_map_iff in Q as ([[i j] k] & E1 & _). cbn in E1.
    destruct row as [|a [|b [|c [|? ?]]]]; try discriminate. exists a, b, c. split; auto. cbn in E1. injection E1 as F1 F2 F3.
    assert (G : forall v x, In v [a; b; c] -> Some x = py_get V' v -> (0 <= v < Z.of_nat (length V'))%Z).
    { intros v x Hv Ev. pose proof (sort_nonneg _ _ _ _ _ ES _ v Hr Hv). replace v with (Z.of_nat (Z.to_nat v)) in Ev by lia. rewrite BvhProofs.py_get_nat in Ev. symmetry in Ev. apply BvhProofs.nth_error_lt in Ev. lia. }
    split; [eapply G; [|exact F1]; cbn; auto|]. split; [eapply G; [|exact F2]; cbn; auto|eapply G; [|exact F3]; cbn; auto]. }
  destruct (Prop_Surface.map_opt_ok row_tri (fun row t => row = RigidTypes.tri_list t) T') as (T2 & ET & F2).
  { intros row Hr. destruct (ROW row Hr) as (a & b & c & -> & _). exists (a, b, c). split; reflexivity. }
  rewrite ET. exists V', T2. split; [reflexivity|]. split; [exact PV|].
  assert (ET' : T' = map RigidTypes.tri_list T2). { clear -F2. induction F2; cbn; congruence. }
  split.
  - intros i j k Hi. destruct (ROW (RigidTypes.tri_list (i, j, k))) as (a & b & c & E1 & R1). { rewrite ET'. apply in_map. exact Hi. } cbn in E1. injection E1 as -> -> ->. tauto.
  - rewrite ET' in PT. exact PT.
Qed.
