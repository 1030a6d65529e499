(** Proofs about the vertex-tetrahedron circulator (volume_mesh.py:337-376) *)
From Verif Require Import Base BvhModel BvhProofs GridModel GridProofs VolModel VolSpec ListProofs VolProofs.
From Coq Require Import Permutation Sorted.
Open Scope Z_scope.

Definition lt_part (v : Z) (L : list (Z * Z)) := filter (fun p => fst p <? v) L.
Definition eq_part (v : Z) (L : list (Z * Z)) := filter (fun p => fst p =? v) L.
Definition gt_part (v : Z) (L : list (Z * Z)) := filter (fun p => v <? fst p) L.
Definition fst_sorted (L : list (Z * Z)) := StronglySorted (fun a b => fst a <= fst b) L.
Lemma filter_none {A} (f : A -> bool) l : (forall x, In x l -> f x = false) -> filter f l = [].
Proof. induction l; cbn; intros H; auto. rewrite H by auto. apply IHl. intros; apply H; auto. Qed.
Lemma three_parts v L : fst_sorted L -> L = lt_part v L ++ eq_part v L ++ gt_part v L.
Proof.
  induction 1 as [|[j x] L S IH F]; auto. rewrite Forall_forall in F. cbn [fst] in F. unfold lt_part, eq_part, gt_part in *. cbn [filter fst].
  destruct (Z.ltb_spec j v), (Z.eqb_spec j v), (Z.ltb_spec v j); try lia.
  - rewrite <- app_comm_cons. f_equal. auto.
  - subst. assert (Z0 : filter (fun p : Z * Z => fst p <? v) L = []) by (apply filter_none; intros p Hp; apply F in Hp; lia).
    rewrite Z0 in *. cbn [app] in *. f_equal. auto.
  - assert (Z0 : filter (fun p : Z * Z => fst p <? v) L = []) by (apply filter_none; intros p Hp; apply F in Hp; lia).
    assert (Z1 : filter (fun p : Z * Z => fst p =? v) L = []) by (apply filter_none; intros p Hp; apply F in Hp; lia).
    rewrite Z0, Z1 in *. cbn [app] in *. f_equal. auto.
Qed.
Lemma nth_upd {A} (l : list A) j v x : 0 <= j < Z.of_nat (length l) -> 0 <= v ->
  nth_error (list_upd l (Z.to_nat j) x) (Z.to_nat v) = if j =? v then Some x else nth_error l (Z.to_nat v).
Proof.
  intros Hj Hv. destruct (Z.eqb_spec j v) as [->|]; [apply list_upd_same; lia|apply list_upd_other; lia].
Qed.
Lemma circ_loop_ok n : forall L prev idx st en,
  fst_sorted L -> (forall p, In p L -> prev <= fst p /\ 0 <= fst p < Z.of_nat n) -> length st = n -> length en = n ->
  exists st' en', circ_loop L prev idx st en = Some (st', en') /\ length st' = n /\ length en' = n /\
    forall v, 0 <= v < Z.of_nat n ->
      nth_error st' (Z.to_nat v) = (if (match eq_part v L with [] => true | _ => false end) || (v =? prev) then nth_error st (Z.to_nat v) else Some (idx + Z.of_nat (length (lt_part v L)))) /\
      nth_error en' (Z.to_nat v) = (match eq_part v L with [] => nth_error en (Z.to_nat v) | _ => Some (idx + Z.of_nat (length (lt_part v L)) + Z.of_nat (length (eq_part v L))) end).
Proof.
  induction L as [|[j e] L IH]; intros prev idx st en S Hr Ls Le.
  - exists st, en. cbn. auto.
  - inversion S as [|? ? S' F]; subst. rewrite Forall_forall in F. cbn [fst] in F.
    destruct (Hr (j, e) (or_introl eq_refl)) as [Hp Hj]. cbn [fst] in *.
    set (k := match L with (k, _) :: _ => k | [] => -1 end).
    set (st1 := if negb (prev =? j) then list_upd st (Z.to_nat j) idx else st).
    set (en1 := if negb (j =? k) then list_upd en (Z.to_nat j) (idx + 1) else en).
    assert (E1 : (if negb (prev =? j) then py_set st j idx else Some st) = Some st1) by (unfold st1; destruct (prev =? j); cbn; auto; apply py_set_range; lia).
    assert (E2 : (if negb (j =? k) then py_set en j (idx + 1) else Some en) = Some en1) by (unfold en1; destruct (j =? k); cbn; auto; apply py_set_range; lia).
    assert (L1 : length st1 = length st) by (unfold st1; destruct (negb _); rewrite ?list_upd_length; auto).
    assert (L2 : length en1 = length st) by (unfold en1; destruct (j =? k); cbn [negb]; rewrite ?list_upd_length; congruence).
    destruct (IH j (idx + 1) st1 en1) as (st' & en' & E & Ls' & Le' & Sp); auto.
    { intros p Hi. split; [apply F; auto|]. apply Hr; right; auto. }
    exists st', en'. change (circ_loop ((j, e) :: L) prev idx st en) with
      (do st <- (if negb (prev =? j) then py_set st j idx else Some st); do en <- (if negb (j =? k) then py_set en j (idx + 1) else Some en); circ_loop L j (idx + 1) st en).
    rewrite E1, E2. split; auto. split; auto. split; auto.
    intros v Hv. destruct (Sp v Hv) as [Sst Sen]. rewrite Sst, Sen. clear Sst Sen Sp IH.
    assert (Kv : j = v -> (k = j <-> eq_part v L <> [])).
    { intros <-. unfold k. destruct L as [|[k' x] L]; [cbn; split; [lia|congruence]|]. unfold eq_part. cbn [filter fst]. destruct (Z.eqb_spec k' j); [split; intros; auto; discriminate|].
      split; [contradiction|]. intros H. exfalso. apply H, filter_none. intros p Hi. apply Z.eqb_neq. intros Ep. inversion S' as [|? ? _ F2]; subst. rewrite Forall_forall in F2. apply F2 in Hi. cbn [fst] in Hi.
      specialize (F (k', x) (or_introl eq_refl)). cbn in F. lia. }
    unfold eq_part, lt_part in *. cbn [filter fst]. destruct (Z.eqb_spec j v) as [Ej|Nj].
    + subst v. cbn [orb]. assert (Z0 : filter (fun p : Z * Z => fst p <? j) L = []) by (apply filter_none; intros p Hi; apply F in Hi; lia).
      destruct (Z.ltb_spec j j); [lia|]. rewrite Z0, Z.eqb_refl, orb_true_r. cbn [length].
      specialize (Kv eq_refl). split.
      * unfold st1. rewrite (Z.eqb_sym j prev). destruct (Z.eqb_spec prev j); cbn [negb]; auto. rewrite nth_upd by lia. rewrite Z.eqb_refl. f_equal. lia.
      * unfold en1. destruct (filter (fun p : Z * Z => fst p =? j) L) as [|q Q] eqn:EQ.
        -- destruct (Z.eqb_spec j k) as [Ek|]; [exfalso; apply (proj1 Kv); auto|]. cbn [negb]. rewrite nth_upd by lia. rewrite Z.eqb_refl. f_equal. cbn. lia.
        -- f_equal. cbn [length]. lia.
    + assert (Ost : nth_error st1 (Z.to_nat v) = nth_error st (Z.to_nat v)).
      { unfold st1. destruct (prev =? j); cbn [negb]; auto. rewrite nth_upd by lia. destruct (Z.eqb_spec j v); [contradiction|auto]. }
      assert (Oen : nth_error en1 (Z.to_nat v) = nth_error en (Z.to_nat v)).
      { unfold en1. destruct (j =? k); cbn [negb]; auto. rewrite nth_upd by lia. destruct (Z.eqb_spec j v); [contradiction|auto]. }
      rewrite Ost, Oen. destruct (filter (fun p : Z * Z => fst p =? v) L) as [|q Q] eqn:EQ; auto.
      assert (Hq : In q L /\ fst q = v) by (assert (In q (filter (fun p : Z * Z => fst p =? v) L)) as Hq by (rewrite EQ; cbn; auto); apply filter_In in Hq; destruct Hq; split; auto; lia).
      destruct Hq as [Hq Eq]. pose proof (F q Hq). destruct (Z.ltb_spec j v); [|lia].
      destruct (Z.eqb_spec v j); [lia|]. destruct (Z.eqb_spec v prev); [lia|]. cbn [orb]. cbn [length]. split; f_equal; lia.
Qed.
Lemma v2t_sorted T : fst_sorted (v2t T).
Proof.
  assert (G : StronglySorted (fun a b => v2t_leb a b = true) (v2t T)).
  { apply (isort_sorted v2t_leb (fun _ => True)); [| |apply Forall_forall; auto].
    - intros [a b] [c d] _ _. unfold v2t_leb. cbn. destruct (Z.ltb_spec a c), (Z.ltb_spec c a); try discriminate; try lia; auto; lia.
    - intros [a b] [c d] [x y] _ _ _. unfold v2t_leb. cbn. destruct (Z.ltb_spec a c), (Z.ltb_spec c a), (Z.ltb_spec c x), (Z.ltb_spec x c), (Z.ltb_spec a x), (Z.ltb_spec x a); try discriminate; try lia; auto; lia. }
  unfold fst_sorted. induction G as [|a l S IH F]; constructor; auto. eapply Forall_impl; [|exact F]. intros b. unfold v2t_leb. destruct (Z.ltb_spec (fst a) (fst b)), (Z.ltb_spec (fst b) (fst a)); intros; try discriminate; lia.
Qed.
Lemma v2t_lex T : StronglySorted (fun a b => fst a < fst b \/ (fst a = fst b /\ snd a <= snd b)) (v2t T).
Proof.
  assert (G : StronglySorted (fun a b => v2t_leb a b = true) (v2t T)).
  { apply (isort_sorted v2t_leb (fun _ => True)); [| |apply Forall_forall; auto].
    - intros [a b] [c d] _ _. unfold v2t_leb. cbn. destruct (Z.ltb_spec a c), (Z.ltb_spec c a); try discriminate; try lia; auto; lia.
    - intros [a b] [c d] [x y] _ _ _. unfold v2t_leb. cbn. destruct (Z.ltb_spec a c), (Z.ltb_spec c a), (Z.ltb_spec c x), (Z.ltb_spec x c), (Z.ltb_spec a x), (Z.ltb_spec x a); try discriminate; try lia; auto; lia. }
  induction G as [|a l S IH F]; constructor; auto. eapply Forall_impl; [|exact F]. intros b. unfold v2t_leb. destruct (Z.ltb_spec (fst a) (fst b)), (Z.ltb_spec (fst b) (fst a)); intros; try discriminate; try lia.
Qed.
Lemma in_v2t T v e : In (v, e) (v2t T) <-> exists n t, e = Z.of_nat n /\ nth_error T n = Some t /\ In v (tet_nodes t).
Proof.
  assert (P : In (v, e) (v2t T) <-> In (v, e) (concat (map (fun p => v2t_rows (fst p) (snd p)) (combine (seq 0 (length T)) T)))).
  { split; apply Permutation_in; [apply Permutation_sym|]; apply isort_perm. }
  rewrite P, in_concat. split.
  - intros (l & Hl & H). apply in_map_iff in Hl. destruct Hl as ([n [[[i j] k] m]] & <- & Hn). apply nth_error_enum in Hn. destruct Hn as [_ Hn]. rewrite Nat.sub_0_r in Hn.
    exists n, (i, j, k, m). cbn in H. cbn. destruct H as [H|[H|[H|[H|[]]]]]; injection H as -> <-; auto 8.
  - intros (n & [[[i j] k] m] & -> & Hn & Hv). exists (v2t_rows n (i, j, k, m)). split.
    + apply in_map_iff. exists (n, (i, j, k, m)). split; auto. apply nth_error_enum. rewrite Nat.sub_0_r. split; [lia|auto].
    + cbn in Hv |- *. destruct Hv as [->|[->|[->|[->|[]]]]]; auto 8.
Qed.
Lemma py_slice_mid {A} (a b c : list A) : py_slice (a ++ b ++ c) (Z.of_nat (length a)) (Z.of_nat (length a) + Z.of_nat (length b)) = b.
Proof.
  unfold py_slice. rewrite !app_length. set (n := Z.of_nat (length a + (length b + length c))).
  destruct (Z.ltb_spec (Z.of_nat (length a)) 0); [lia|]. destruct (Z.ltb_spec (Z.of_nat (length a) + Z.of_nat (length b)) 0); [lia|].
  replace (Z.to_nat (Z.max 0 (Z.min n (Z.of_nat (length a))))) with (length a) by lia.
  replace (Z.to_nat (Z.max 0 (Z.min n (Z.of_nat (length a) + Z.of_nat (length b)))) - length a)%nat with (length b) by lia.
  rewrite skipn_app, skipn_all, Nat.sub_diag. cbn [skipn app]. rewrite firstn_app, Nat.sub_diag, firstn_all. cbn. apply app_nil_r.
Qed.
Lemma circulator_ok (V : list vec3) T : (forall t v, In t T -> In v (tet_nodes t) -> 0 <= v < Z.of_nat (length V)) ->
  exists c, circulator_make V T = Some c /\ forall v, 0 <= v < Z.of_nat (length V) -> circ_tetrahedra c v = Some (map snd (eq_part v (v2t T))).
Proof.
  intros Hv. destruct (circ_loop_ok (length V) (v2t T) (-1) 0 (repeat (-1) (length V)) (repeat (-1) (length V))) as (st & en & E & Ls & Le & Sp).
  - apply v2t_sorted.
  - intros [v e] H. apply in_v2t in H. destruct H as (n & t & -> & Ht & Hi). apply nth_error_In in Ht. specialize (Hv t v Ht Hi). cbn. lia.
  - apply repeat_length.
  - apply repeat_length.
  - unfold circulator_make. rewrite E. eexists. split; [reflexivity|]. intros v Hr. destruct (Sp v Hr) as [S1 S2]. unfold circ_tetrahedra. cbn [c_start c_end c_v2t fst snd].
    unfold py_get. rewrite <- (Z2Nat.id v) by lia. rewrite !py_idx_nat by lia. rewrite S1, S2. destruct (Z.eqb_spec v (-1)); [lia|]. rewrite orb_false_r.
    destruct (eq_part v (v2t T)) as [|q Q] eqn:EQ.
    + rewrite nth_error_repeat by lia. rewrite Z2Nat.id, EQ by lia. f_equal. replace (py_slice (v2t T) (-1) (-1)) with (@nil (Z * Z)); auto. unfold py_slice. rewrite Nat.sub_diag. auto.
    + rewrite Z2Nat.id, EQ by lia. f_equal. f_equal. rewrite <- EQ. rewrite (three_parts v (v2t T) (v2t_sorted T)) at 1. rewrite !Z.add_0_l. apply py_slice_mid.
Qed.
