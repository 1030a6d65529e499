From Verif Require Import Base BvhModel BvhProofs GridModel GridProofs BaryModel VolModel VolSpec ListProofs.
From Coq Require Import Permutation Sorted.
Open Scope R_scope.

(** ** cube mesh *)
Definition Rsum (l : list R) : R := fold_right Rplus 0 l.
Lemma Rsum_app a b : Rsum (a ++ b) = Rsum a + Rsum b.
Proof. unfold Rsum. induction a as [|x a IH]; cbn [app fold_right]; [ring|rewrite IH; ring]. Qed.
Lemma vols_flat {A} (f : tet -> option R) (g : A -> list tet) (c : R) (l : list A) :
  (forall x, In x l -> exists vs, map_opt f (g x) = Some vs /\ Rsum vs = c /\ Forall (fun v => 0 < v) vs) ->
  exists vs, map_opt f (flat_map g l) = Some vs /\ Rsum vs = INR (length l) * c /\ Forall (fun v => 0 < v) vs.
Proof.
  induction l as [|a l IH]; intros H.
  - exists []. cbn. repeat split; auto; lra.
  - destruct (H a (or_introl eq_refl)) as (va & Ea & Sa & Fa). destruct IH as (vl & El & Sl & Fl); [intros; apply H; cbn; auto|].
    exists (va ++ vl). cbn [flat_map]. rewrite map_opt_app, Ea, El, Rsum_app, Sa, Sl. split; auto. split; [|apply Forall_app; auto].
    cbn [length]. rewrite S_INR. ring.
Qed.
(** V holds the lattice points *)
Definition lattice (V : list vec3) (I J K : Z) (o d : vec3) : Prop :=
  forall i j k, (0 <= i < I)%Z -> (0 <= j < J)%Z -> (0 <= k < K)%Z ->
    py_get V ((k * J + j) * I + i) = Some (mkV (vx o + IZR i * vx d) (vy o + IZR j * vy d) (vz o + IZR k * vz d)).
Lemma cell_volumes V I J K o d i j k : lattice V I J K o d -> 0 < vx d -> 0 < vy d -> 0 < vz d ->
  (0 <= i < I - 1)%Z -> (0 <= j < J - 1)%Z -> (0 <= k < K - 1)%Z ->
  exists vs, map_opt (tet_volume V) (cell_tets I J i j k) = Some vs /\ Rsum vs = vx d * vy d * vz d /\ Forall (fun v => 0 < v) vs.
Proof.
  intros L Hx Hy Hz Hi Hj Hk. unfold cell_tets. cbv zeta.
  pose proof (L i j k ltac:(lia) ltac:(lia) ltac:(lia)) as L000. pose proof (L (i + 1) j k ltac:(lia) ltac:(lia) ltac:(lia))%Z as L001.
  pose proof (L i (j + 1) k ltac:(lia) ltac:(lia) ltac:(lia))%Z as L010. pose proof (L (i + 1) (j + 1) k ltac:(lia) ltac:(lia) ltac:(lia))%Z as L011.
  pose proof (L i j (k + 1) ltac:(lia) ltac:(lia) ltac:(lia))%Z as L100. pose proof (L (i + 1) j (k + 1) ltac:(lia) ltac:(lia) ltac:(lia))%Z as L101.
  pose proof (L i (j + 1) (k + 1) ltac:(lia) ltac:(lia) ltac:(lia))%Z as L110. pose proof (L (i + 1) (j + 1) (k + 1) ltac:(lia) ltac:(lia) ltac:(lia))%Z as L111.
  assert (D : 0 < vx d * vy d * vz d) by (repeat apply Rmult_lt_0_compat; auto).
  rewrite !plus_IZR in *.
  set (X := vx o + IZR i * vx d) in *. set (Y := vy o + IZR j * vy d) in *. set (W := vz o + IZR k * vz d) in *.
  replace (vx o + (IZR i + 1) * vx d) with (X + vx d) in * by (unfold X; ring).
  replace (vy o + (IZR j + 1) * vy d) with (Y + vy d) in * by (unfold Y; ring).
  replace (vz o + (IZR k + 1) * vz d) with (W + vz d) in * by (unfold W; ring). clearbody X Y W.
  assert (Q : forall t, 6 * t = vx d * vy d * vz d \/ 3 * t = vx d * vy d * vz d -> 0 < t) by (intros t [E|E]; lra).
  destruct (((i + j + k) mod 2 =? 1)%Z); cbn [map_opt]; unfold tet_volume; rewrite L000, ?L001, ?L010, ?L011, ?L100, ?L101, ?L110, ?L111;
    (eexists; split; [reflexivity|]; split;
     [unfold Rsum; cbn [fold_right]; vunf; field
     |repeat (apply Forall_cons; [apply Q; vunf; first [left; field | right; field]|]); apply Forall_nil]).
Qed.
Lemma len_zupto_R n : (0 <= n)%Z -> INR (length (zupto n)) = IZR n.
Proof. intros. unfold zupto. rewrite map_length, seq_length, INR_IZR_INZ, Z2Nat.id; auto. Qed.
Lemma cube_volumes V I J K o d : lattice V I J K o d -> 0 < vx d -> 0 < vy d -> 0 < vz d -> (1 <= I)%Z -> (1 <= J)%Z -> (1 <= K)%Z ->
  exists vs, compute_volumes V (create_tetrahedron_array_from_cube_mesh I J K) = Some vs /\
    Rsum vs = (IZR (I - 1) * vx d) * (IZR (J - 1) * vy d) * (IZR (K - 1) * vz d) /\ Forall (fun v => 0 < v) vs.
Proof.
  intros L Hx Hy Hz HI HJ HK. unfold compute_volumes, create_tetrahedron_array_from_cube_mesh.
  destruct (vols_flat (tet_volume V) (fun k => flat_map (fun j => flat_map (fun i => cell_tets I J i j k) (zupto (I - 1))) (zupto (J - 1)))
    (IZR (J - 1) * (IZR (I - 1) * (vx d * vy d * vz d))) (zupto (K - 1))) as (vs & E & S & F).
  - intros k Hk. apply in_zupto in Hk.
    destruct (vols_flat (tet_volume V) (fun j => flat_map (fun i => cell_tets I J i j k) (zupto (I - 1))) (IZR (I - 1) * (vx d * vy d * vz d)) (zupto (J - 1))) as (vs & E & S & F).
    + intros j Hj. apply in_zupto in Hj.
      destruct (vols_flat (tet_volume V) (fun i => cell_tets I J i j k) (vx d * vy d * vz d) (zupto (I - 1))) as (vs & E & S & F).
      * intros i Hi. apply in_zupto in Hi. eapply cell_volumes; eauto.
      * exists vs. rewrite len_zupto_R in S by lia. auto.
    + exists vs. rewrite len_zupto_R in S by lia. auto.
  - exists vs. rewrite len_zupto_R in S by lia. split; auto. split; auto. rewrite S. ring.
Qed.
Lemma in_cube I J K t : In t (create_tetrahedron_array_from_cube_mesh I J K) <->
  exists i j k, (0 <= i < I - 1 /\ 0 <= j < J - 1 /\ 0 <= k < K - 1)%Z /\ In t (cell_tets I J i j k).
Proof.
  unfold create_tetrahedron_array_from_cube_mesh. rewrite in_flat_map. split.
  - intros (k & Hk & H). apply in_flat_map in H. destruct H as (j & Hj & H). apply in_flat_map in H. destruct H as (i & Hi & H).
    rewrite in_zupto in *. exists i, j, k. auto.
  - intros (i & j & k & (Hi & Hj & Hk) & H). exists k. rewrite in_zupto. split; auto. apply in_flat_map. exists j. rewrite in_zupto. split; auto.
    apply in_flat_map. exists i. rewrite in_zupto. auto.
Qed.
Lemma cell_len I J i j k : length (cell_tets I J i j k) = 5%nat.
Proof. unfold cell_tets. cbv zeta. destruct ((_ =? 1)%Z); reflexivity. Qed.
Lemma flat_const_len {A B} (f : A -> list B) c l : (forall x, In x l -> length (f x) = c) -> length (flat_map f l) = (length l * c)%nat.
Proof. induction l; intros H; cbn; auto. rewrite app_length, IHl by (intros; apply H; cbn; auto). rewrite H by (cbn; auto). lia. Qed.
Lemma cube_len I J K : (1 <= I)%Z -> (1 <= J)%Z -> (1 <= K)%Z -> Z.of_nat (length (create_tetrahedron_array_from_cube_mesh I J K)) = (5 * (I - 1) * (J - 1) * (K - 1))%Z.
Proof.
  intros. unfold create_tetrahedron_array_from_cube_mesh.
  rewrite (flat_const_len _ (length (zupto (J - 1)) * (length (zupto (I - 1)) * 5))).
  - unfold zupto. rewrite !map_length, !seq_length. nia.
  - intros k _. apply flat_const_len. intros j _. apply flat_const_len. intros i _. apply cell_len.
Qed.
Lemma node_range I J K i j k : (0 <= i < I)%Z -> (0 <= j < J)%Z -> (0 <= k < K)%Z -> (0 <= (k * J + j) * I + i < I * J * K)%Z.
Proof. intros. assert (0 <= k * J + j <= J * K - 1)%Z by nia. split; nia. Qed.
Lemma cube_nodes I J K t v : In t (create_tetrahedron_array_from_cube_mesh I J K) -> In v (tet_nodes t) -> (0 <= v < I * J * K)%Z.
Proof.
  intros Ht Hv. apply in_cube in Ht. destruct Ht as (i & j & k & (Hi & Hj & Hk) & Ht). unfold cell_tets in Ht. cbv zeta in Ht.
  assert (N : forall a b c, (0 <= a <= 1)%Z -> (0 <= b <= 1)%Z -> (0 <= c <= 1)%Z -> (0 <= ((k + c) * J + (j + b)) * I + (i + a) < I * J * K)%Z) by (intros; apply node_range; lia).
  pose proof (N 0 0 0 ltac:(lia) ltac:(lia) ltac:(lia))%Z. pose proof (N 1 0 0 ltac:(lia) ltac:(lia) ltac:(lia))%Z. pose proof (N 0 1 0 ltac:(lia) ltac:(lia) ltac:(lia))%Z. pose proof (N 1 1 0 ltac:(lia) ltac:(lia) ltac:(lia))%Z.
  pose proof (N 0 0 1 ltac:(lia) ltac:(lia) ltac:(lia))%Z. pose proof (N 1 0 1 ltac:(lia) ltac:(lia) ltac:(lia))%Z. pose proof (N 0 1 1 ltac:(lia) ltac:(lia) ltac:(lia))%Z. pose proof (N 1 1 1 ltac:(lia) ltac:(lia) ltac:(lia))%Z.
  rewrite ?Z.add_0_r in *. clear N.
  destruct ((_ =? 1)%Z); cbn in Ht; decompose [or] Ht; try contradiction; subst t; cbn in Hv; decompose [or] Hv; try contradiction; subst v; assumption.
Qed.

(** ** neighbours *)
Lemma in_elem_faces e t r : In r (elem_faces e t) <-> exists v, (v < 4)%nat /\ r = mkF (isort Z.leb (face_verts t v)) e v.
Proof.
  destruct t as [[[i j] k] m]. unfold elem_faces, sorted3. cbn [In]. split.
  - intros [<-|[<-|[<-|[<-|[]]]]]; [exists 0%nat|exists 1%nat|exists 2%nat|exists 3%nat]; split; auto; lia.
  - intros (v & Hv & ->). destruct v as [|[|[|[|v]]]]; [| | | |lia]; cbn; auto 6.
Qed.
Lemma in_face_info T r : In r (face_info T) <-> exists t, nth_error T (f_elem r) = Some t /\ (f_opp r < 4)%nat /\ f_verts r = isort Z.leb (face_verts t (f_opp r)).
Proof.
  unfold face_info. rewrite in_concat. split.
  - intros (l & Hl & Hr). apply in_map_iff in Hl. destruct Hl as ([e t] & <- & He). apply nth_error_enum in He. destruct He as [_ He]. rewrite Nat.sub_0_r in He.
    cbn [fst snd] in Hr. apply in_elem_faces in Hr. destruct Hr as (v & Hv & ->). exists t. auto.
  - intros (t & Ht & Hv & E). exists (elem_faces (f_elem r) t). split.
    + apply in_map_iff. exists (f_elem r, t). split; auto. apply nth_error_enum. rewrite Nat.sub_0_r. split; [lia|auto].
    + apply in_elem_faces. exists (f_opp r). split; auto. destruct r; cbn in *; subst; auto.
Qed.
Lemma face_info_NoDup T : NoDup (face_info T).
Proof.
  unfold face_info. rewrite <- flat_map_concat_map. apply NoDup_flat_map; [apply NoDup_enum| |].
  - intros [e [[[i j] k] m]] _. cbn.
    repeat match goal with |- NoDup (_ :: _) => constructor; [cbn; intros H; decompose [or] H; try contradiction; congruence|] | |- NoDup [] => constructor end.
  - intros [e t] [e' t'] r Hx Hy Hr Hr'. cbn [fst snd] in *. apply in_elem_faces in Hr, Hr'. destruct Hr as (v & _ & ->), Hr' as (v' & _ & E).
    injection E as _ <- _. apply nth_error_enum in Hx, Hy. destruct Hx as [_ Hx], Hy as [_ Hy]. rewrite Hx in Hy. injection Hy as <-. auto.
Qed.
Lemma lex_tot a : forall b, lex_leb a b = false -> lex_leb b a = true.
Proof.
  induction a as [|x a IH]; intros [|y b]; cbn; auto; try discriminate.
  destruct (Z.ltb_spec x y), (Z.ltb_spec y x); auto; try discriminate; lia.
Qed.
Lemma lex_trans a : forall b c, length a = length b -> length b = length c -> lex_leb a b = true -> lex_leb b c = true -> lex_leb a c = true.
Proof.
  induction a as [|x a IH]; intros [|y b] [|z c] L1 L2; cbn in *; auto; try discriminate.
  destruct (Z.ltb_spec x y), (Z.ltb_spec y x), (Z.ltb_spec y z), (Z.ltb_spec z y), (Z.ltb_spec x z), (Z.ltb_spec z x); auto; try discriminate; try lia.
  apply IH; lia.
Qed.
Lemma lex_anti a : forall b, length a = length b -> lex_leb a b = true -> lex_leb b a = true -> a = b.
Proof.
  induction a as [|x a IH]; intros [|y b] L; cbn in *; auto; try discriminate.
  destruct (Z.ltb_spec x y), (Z.ltb_spec y x); try discriminate; try lia. intros. f_equal; [lia|]. apply IH; auto; lia.
Qed.
Lemma zlist_eqb_eq a : forall b, zlist_eqb a b = true <-> a = b.
Proof.
  induction a as [|x a IH]; intros [|y b]; cbn; split; intros; try discriminate; auto.
  - apply andb_true_iff in H. destruct H as [H1 H2]. apply Z.eqb_eq in H1. apply IH in H2. congruence.
  - injection H as -> ->. rewrite Z.eqb_refl. apply IH. auto.
Qed.
Definition slot_idx (r : finfo) : nat := (4 * f_elem r + f_opp r)%nat.
Fixpoint writes (L : list finfo) : list (nat * Z) :=
  match L with
  | a :: ((b :: _) as L') => (if zlist_eqb (f_verts a) (f_verts b) then [(slot_idx a, Z.of_nat (f_elem b)); (slot_idx b, Z.of_nat (f_elem a))] else []) ++ writes L'
  | _ => []
  end.
Lemma link_writes L : forall N, link_faces L N = fold_writes (writes L) N.
Proof.
  induction L as [|a L IH]; intros N; [reflexivity|]. destruct L as [|b L]; [reflexivity|].
  change (link_faces (a :: b :: L) N) with (link_faces (b :: L) (if zlist_eqb (f_verts a) (f_verts b) then list_upd (list_upd N (4 * f_elem a + f_opp a) (Z.of_nat (f_elem b))) (4 * f_elem b + f_opp b) (Z.of_nat (f_elem a)) else N)).
  change (writes (a :: b :: L)) with ((if zlist_eqb (f_verts a) (f_verts b) then [(slot_idx a, Z.of_nat (f_elem b)); (slot_idx b, Z.of_nat (f_elem a))] else []) ++ writes (b :: L)).
  rewrite IH, fold_writes_app. f_equal. destruct (zlist_eqb (f_verts a) (f_verts b)); reflexivity.
Qed.
(** writes come from adjacent records with equal vertices *)
Lemma in_writes L : forall n x, In (n, x) (writes L) <->
  exists l1 a b l2, L = l1 ++ a :: b :: l2 /\ f_verts a = f_verts b /\ ((n = slot_idx a /\ x = Z.of_nat (f_elem b)) \/ (n = slot_idx b /\ x = Z.of_nat (f_elem a))).
Proof.
  induction L as [|a L IH]; intros n x.
  - split; [contradiction|]. intros (l1 & a & b & l2 & E & _). destruct l1; discriminate.
  - destruct L as [|b L].
    + split; [contradiction|]. intros (l1 & a' & b & l2 & E & _). destruct l1 as [|? [|? ?]]; discriminate.
    + change (writes (a :: b :: L)) with ((if zlist_eqb (f_verts a) (f_verts b) then [(slot_idx a, Z.of_nat (f_elem b)); (slot_idx b, Z.of_nat (f_elem a))] else []) ++ writes (b :: L)).
      rewrite in_app_iff, IH. split.
      * intros [H|(l1 & a' & b' & l2 & E & H)].
        -- destruct (zlist_eqb (f_verts a) (f_verts b)) eqn:Ez; [|contradiction]. apply zlist_eqb_eq in Ez. exists [], a, b, L. split; auto. split; auto.
           destruct H as [H|[H|[]]]; injection H as <- <-; auto.
        -- exists (a :: l1), a', b', l2. rewrite E. auto.
      * intros (l1 & a' & b' & l2 & E & Hv & H). destruct l1 as [|c l1].
        -- injection E as <- <- <-. left. apply zlist_eqb_eq in Hv. rewrite Hv. destruct H as [[-> ->]|[-> ->]]; cbn; auto.
        -- injection E as <- E. right. exists l1, a', b', l2. auto.
Qed.
Definition rec_of (r : finfo) : slot := (f_elem r, f_opp r).
Lemma rec_inj T r r' : In r (face_info T) -> In r' (face_info T) -> rec_of r = rec_of r' -> r = r'.
Proof.
  intros Hr Hr' E. apply in_face_info in Hr, Hr'. destruct Hr as (t & Ht & _ & Hv), Hr' as (t' & Ht' & _ & Hv'). destruct r as [vs e o], r' as [vs' e' o']. unfold rec_of in E; cbn in *.
  injection E as <- <-. rewrite Ht in Ht'. injection Ht' as <-. congruence.
Qed.
Lemma same_face_rec T r r' : In r (face_info T) -> In r' (face_info T) -> (f_verts r = f_verts r' <-> same_face T (rec_of r) (rec_of r')).
Proof.
  intros Hr Hr'. apply in_face_info in Hr, Hr'. destruct Hr as (t & Ht & Ho & Hv), Hr' as (t' & Ht' & Ho' & Hv'). rewrite Hv, Hv', isort_Z_eq. split.
  - intros P. exists (face_verts t (f_opp r)), (face_verts t' (f_opp r')). split; [|split]; auto; [exists t|exists t']; auto.
  - intros (f & f' & (a & Ha & _ & ->) & (a' & Ha' & _ & ->) & P). cbn in *. rewrite Ht in Ha. rewrite Ht' in Ha'. injection Ha as <-. injection Ha' as <-. auto.
Qed.
Lemma slot_rec T s : is_slot T s -> exists r, In r (face_info T) /\ rec_of r = s.
Proof.
  intros [H1 H2]. destruct (nth_error T (fst s)) as [t|] eqn:E; [|apply nth_error_None in E; lia].
  exists (mkF (isort Z.leb (face_verts t (snd s))) (fst s) (snd s)). split; [|destruct s; reflexivity]. apply in_face_info. exists t. auto.
Qed.
Lemma rec_slot T r : In r (face_info T) -> is_slot T (rec_of r).
Proof. intros H. apply in_face_info in H. destruct H as (t & Ht & Ho & _). split; cbn; auto. apply nth_error_Some. congruence. Qed.
Lemma slot_idx_inj r r' : (f_opp r < 4)%nat -> (f_opp r' < 4)%nat -> slot_idx r = slot_idx r' -> rec_of r = rec_of r'.
Proof. unfold slot_idx, rec_of. intros. f_equal; lia. Qed.
Lemma finfo_sorted T : StronglySorted (fun a b => finfo_leb a b = true) (isort finfo_leb (face_info T)).
Proof.
  apply (isort_sorted finfo_leb (fun r => length (f_verts r) = 3%nat)).
  - intros x y _ _. apply lex_tot.
  - intros x y z Hx Hy Hz. unfold finfo_leb. apply lex_trans; rewrite !rev_length; congruence.
  - apply Forall_forall. intros r Hr. apply in_face_info in Hr. destruct Hr as ([[[i j] k] m] & _ & _ & ->). rewrite isort_length. unfold face_verts. destruct (f_opp r) as [|[|[|]]]; reflexivity.
Qed.
Lemma verts_len T r : In r (face_info T) -> length (f_verts r) = 3%nat.
Proof. intros Hr. apply in_face_info in Hr. destruct Hr as ([[[i j] k] m] & _ & _ & ->). rewrite isort_length. unfold face_verts. destruct (f_opp r) as [|[|[|]]]; reflexivity. Qed.
(** two records with the same vertices are adjacent when a face has at most two records *)
Lemma adjacent T r r' : at_most_two T -> In r (face_info T) -> In r' (face_info T) -> r <> r' -> f_verts r = f_verts r' ->
  let L := isort finfo_leb (face_info T) in
  (exists l1 l2, L = l1 ++ r :: r' :: l2) \/ (exists l1 l2, L = l1 ++ r' :: r :: l2).
Proof.
  intros A2 Hr Hr' Hne Hv. cbv zeta. set (L := isort finfo_leb (face_info T)).
  assert (PL : Permutation (face_info T) L) by apply isort_perm.
  assert (IL : forall x, In x L -> In x (face_info T)) by (intros; eapply Permutation_in; [apply Permutation_sym; exact PL|auto]).
  assert (ND : NoDup L) by (eapply Permutation_NoDup; [exact PL|apply face_info_NoDup]).
  assert (G : forall a b l1 l2 l3, L = l1 ++ a :: l2 ++ b :: l3 -> f_verts a = f_verts b -> l2 = []).
  { intros a b l1 l2 l3 E V. destruct l2 as [|c l2]; auto. exfalso.
    assert (Ia : In a L) by (rewrite E; apply in_app_iff; cbn; auto).
    assert (Ic : In c L) by (rewrite E; apply in_app_iff; cbn; auto).
    assert (Ib : In b L) by (rewrite E; apply in_app_iff; right; right; apply in_app_iff; right; cbn; auto).
    pose proof (finfo_sorted T) as SL. fold L in SL. rewrite E in SL.
    assert (S1 : StronglySorted (fun a b => finfo_leb a b = true) (a :: (c :: l2) ++ b :: l3)).
    { clear - SL. induction l1 as [|x l1 IH]; auto. inversion SL; auto. }
    inversion S1 as [|? ? S2 F2]; subst. rewrite Forall_forall in F2. pose proof (F2 c (or_introl eq_refl)) as ac.
    cbn [app] in S2. inversion S2 as [|? ? S3 F3]; subst. rewrite Forall_forall in F3. assert (cb : finfo_leb c b = true) by (apply F3, in_app_iff; cbn; auto).
    assert (V3 : f_verts a = f_verts c).
    { unfold finfo_leb in ac, cb. rewrite <- V in cb.
      assert (Er : rev (f_verts a) = rev (f_verts c)) by (apply lex_anti; auto; rewrite !rev_length, (verts_len T a), (verts_len T c); auto).
      rewrite <- (rev_involutive (f_verts a)), Er, rev_involutive. auto. }
    rewrite E in ND. apply NoDup_remove in ND. destruct ND as [ND Na]. rewrite in_app_iff in Na.
    pose proof (proj1 (same_face_rec T a c (IL _ Ia) (IL _ Ic)) V3) as F1.
    pose proof (proj1 (same_face_rec T a b (IL _ Ia) (IL _ Ib)) V) as F4.
    destruct (A2 _ _ _ F1 F4) as [Eq|[Eq|Eq]]; (apply (rec_inj T) in Eq; [|apply IL; assumption|apply IL; assumption]); subst.
    - apply Na. cbn. auto.
    - apply Na. right. apply in_app_iff. cbn. auto.
    - rewrite <- app_comm_cons in ND. apply NoDup_remove in ND. apply (proj2 ND). apply in_app_iff. right. apply in_app_iff. cbn. auto. }
  assert (Lr : In r L) by (eapply Permutation_in; eauto). assert (Lr' : In r' L) by (eapply Permutation_in; eauto).
  destruct (in_split _ _ Lr) as (l1 & l2 & E). rewrite E in Lr'. apply in_app_iff in Lr'. destruct Lr' as [H|[H|H]]; [| contradiction |].
  - destruct (in_split _ _ H) as (m1 & m2 & ->). rewrite <- app_assoc in E. cbn [app] in E. pose proof (G _ _ _ _ _ E (eq_sym Hv)) as ->. right. exists m1, l2. auto.
  - destruct (in_split _ _ H) as (m1 & m2 & ->). pose proof (G _ _ _ _ _ E Hv) as ->. left. exists l1, m2. auto.
Qed.
(** with no hypothesis: a shared record has an adjacent record with the same vertices *)
Lemma adjacent_any T r r' : In r (face_info T) -> In r' (face_info T) -> r <> r' -> f_verts r = f_verts r' ->
  let L := isort finfo_leb (face_info T) in
  exists c, f_verts c = f_verts r /\ ((exists l1 l2, L = l1 ++ r :: c :: l2) \/ (exists l1 l2, L = l1 ++ c :: r :: l2)).
Proof.
  intros Hr Hr' Hne Hv. cbv zeta. set (L := isort finfo_leb (face_info T)).
  assert (PL : Permutation (face_info T) L) by apply isort_perm.
  assert (IL : forall x, In x L -> In x (face_info T)) by (intros; eapply Permutation_in; [apply Permutation_sym; exact PL|auto]).
  assert (G : forall a b c l1 l2, L = l1 ++ a :: l2 -> f_verts a = f_verts b -> In c l2 -> In b l2 -> finfo_leb c b = true \/ c = b -> f_verts c = f_verts a).
  { intros a b c l1 l2 E V Ic Ib cb. destruct cb as [cb| ->]; auto.
    pose proof (finfo_sorted T) as SL. fold L in SL. rewrite E in SL.
    assert (S1 : StronglySorted (fun a b => finfo_leb a b = true) (a :: l2)).
    { clear - SL. induction l1 as [|x l1 IH]; auto. inversion SL; auto. }
    inversion S1 as [|? ? S2 F2]; subst. rewrite Forall_forall in F2. pose proof (F2 c Ic) as ac.
    unfold finfo_leb in ac, cb. rewrite <- V in cb.
    assert (Hc : In c L) by (rewrite E; apply in_app_iff; cbn; auto). assert (Ha : In a L) by (rewrite E; apply in_app_iff; cbn; auto).
    assert (Er : rev (f_verts a) = rev (f_verts c)) by (apply lex_anti; auto; rewrite !rev_length, (verts_len T a), (verts_len T c); auto).
    rewrite <- (rev_involutive (f_verts c)), <- Er, rev_involutive. auto. }
  assert (M : forall a c l1 l2 b, L = l1 ++ a :: c :: l2 -> In b (c :: l2) -> finfo_leb c b = true \/ c = b).
  { intros a c l1 l2 b E [->|Hb]; auto. left. pose proof (finfo_sorted T) as SL. fold L in SL. rewrite E in SL.
    assert (S1 : StronglySorted (fun a b => finfo_leb a b = true) (a :: c :: l2)).
    { clear - SL. induction l1 as [|x l1 IH]; auto. inversion SL; auto. }
    inversion S1 as [|? ? S2 F2]; subst. inversion S2 as [|? ? S3 F3]; subst. rewrite Forall_forall in F3. auto. }
  assert (Lr : In r L) by (eapply Permutation_in; eauto). assert (Lr' : In r' L) by (eapply Permutation_in; eauto).
  destruct (in_split _ _ Lr) as (l1 & l2 & E). pose proof Lr' as Lr2. rewrite E in Lr2. apply in_app_iff in Lr2. destruct Lr2 as [H|[H|H]]; [|contradiction|].
  - (* r' before r: the predecessor of r *)
    destruct (in_split _ _ H) as (m1 & m2 & ->). rewrite <- app_assoc in E. cbn [app] in E.
    destruct (exists_last (l := r' :: m2) ltac:(discriminate)) as (m3 & c & Ec).
    exists c. assert (E2 : L = m1 ++ m3 ++ c :: r :: l2) by (rewrite E, app_comm_cons, Ec, <- app_assoc; auto).
    split; [|right; exists (m1 ++ m3), l2; rewrite <- app_assoc; auto].
    destruct m2 as [|x m2].
    + destruct m3 as [|? [|? ?]]; try discriminate. injection Ec as <-. auto.
    + destruct m3 as [|y m3]; [discriminate|]. injection Ec as <- Ec.
      rewrite Hv. apply (G r' r c m1 (m3 ++ c :: r :: l2)); auto.
      * apply in_app_iff; cbn; auto.
      * apply in_app_iff; cbn; auto.
      * destruct (exists_last (l := r' :: m3) ltac:(discriminate)) as (m4 & z & Ez). apply (M z c (m1 ++ m4) (r :: l2)); [|cbn; auto].
        rewrite E2. change (m1 ++ (r' :: m3) ++ c :: r :: l2 = (m1 ++ m4) ++ z :: c :: r :: l2). rewrite Ez, <- !app_assoc. auto.
  - destruct l2 as [|c l2]; [contradiction|]. exists c. split; [|left; exists l1, l2; auto].
    apply (G r r' c l1 (c :: l2)); cbn; auto. apply (M r c l1 l2 r'); auto.
Qed.
