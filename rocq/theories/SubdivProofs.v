(** Proofs about create_loop_subdivision (volume_mesh.py:175-226) *)
From Verif Require Import Base BvhModel BvhProofs GridModel GridProofs VolModel VolSpec ListProofs VolProofs.
From Coq Require Import Permutation Sorted.
Open Scope R_scope.

Definition midpoint (a b : vec3) : vec3 := vscale (/ 2) (vadd a b).
(** entry number n of the table *)
Definition entry (lut : lut_t) (n : nat) (key : Z * Z) (p : vec3) : Prop := nth_error lut n = Some (key, (Z.of_nat n, p)).
Definition key_mid (V : list vec3) (key : Z * Z) (p : vec3) : Prop :=
  exists a b, py_get V (fst key) = Some a /\ py_get V (snd key) = Some b /\ p = midpoint a b.
Definition lut_ok (V : list vec3) (lut : lut_t) : Prop :=
  NoDup (map fst lut) /\ forall n x, nth_error lut n = Some x -> fst (snd x) = Z.of_nat n /\ key_mid V (fst x) (snd (snd x)).
Definition mid_idx (lut : lut_t) (off i j z : Z) : Prop := exists n p, z = (Z.of_nat n + off)%Z /\ entry lut n (edge_key i j) p.
Lemma key_eqb_eq a b : key_eqb a b = true <-> a = b.
Proof. unfold key_eqb. destruct a, b; cbn. rewrite andb_true_iff, !Z.eqb_eq. split; [intros []; congruence|intros E; injection E; auto]. Qed.
Lemma lut_find_some lut k v : lut_find lut k = Some v -> In (k, v) lut.
Proof. induction lut as [|[k' v'] l IH]; cbn; [discriminate|]. destruct (key_eqb k' k) eqn:E; [|auto]. apply key_eqb_eq in E. intros H. left. congruence. Qed.
Lemma lut_find_none lut k : lut_find lut k = None -> ~ In k (map fst lut).
Proof.
  induction lut as [|[k' v'] l IH]; cbn; auto. destruct (key_eqb k' k) eqn:E; [discriminate|]. intros H [Eq|Hi]; [|apply IH; auto].
  subst. assert (key_eqb k k = true) by (apply key_eqb_eq; auto). congruence.
Qed.
Lemma edge_key_mid V i j pi pj : py_get V i = Some pi -> py_get V j = Some pj -> key_mid V (edge_key i j) (vdiv (vadd pi pj) 2).
Proof.
  intros Hi Hj. unfold edge_key. destruct (i <? j)%Z; [exists pi, pj|exists pj, pi]; cbn; repeat split; auto;
    destruct pi as [a0 a1 a2], pj as [b0 b1 b2]; unfold midpoint; vunf; f_equal; field.
Qed.
Lemma create_midpoint_ok V i j pi pj lut off : lut_ok V lut -> py_get V i = Some pi -> py_get V j = Some pj ->
  exists z lut' sfx, create_midpoint i j pi pj lut off = (z, lut') /\ lut_ok V lut' /\ mid_idx lut' off i j z /\ lut' = lut ++ sfx /\
    (forall k, In k (map fst lut') <-> In k (map fst lut) \/ k = edge_key i j).
Proof.
  intros [ND Hl] Hi Hj. unfold create_midpoint. destruct (lut_find lut (edge_key i j)) as [[idx p]|] eqn:E.
  - apply lut_find_some in E. exists (idx + off)%Z, lut, []. split; auto. split; [split; auto|]. split; [|split; [rewrite app_nil_r; auto|]].
    + apply In_nth_error in E. destruct E as (n & En). destruct (Hl n _ En) as [E1 _]. cbn in E1. subst idx. exists n, p. split; auto.
    + intros k. split; auto. intros [|E0]; auto; subst k. apply (in_map fst) in E. auto.
  - apply lut_find_none in E. eexists _, _, [_]. split; [reflexivity|]. split; [|split; [|split; [reflexivity|]]].
    + split.
      * rewrite map_app. cbn [map fst]. eapply Permutation_NoDup; [apply Permutation_cons_append|]. constructor; auto.
      * intros n x Hx. destruct (Nat.lt_ge_cases n (length lut)).
        -- rewrite nth_error_app1 in Hx by auto. auto.
        -- rewrite nth_error_app2 in Hx by auto. destruct (n - length lut)%nat as [|q] eqn:En; [|destruct q; discriminate]. cbn in Hx.
           assert (x = (edge_key i j, (Z.of_nat (length lut), vdiv (vadd pi pj) 2))) as -> by congruence. cbn [fst snd]. split; [f_equal; lia|]. apply edge_key_mid; auto.
    + exists (length lut), (vdiv (vadd pi pj) 2). split; auto. unfold entry. rewrite nth_error_app2, Nat.sub_diag by auto. auto.
    + intros k. rewrite map_app, in_app_iff. cbn. intuition.
Qed.
Lemma mid_idx_ext lut sfx off i j z : mid_idx lut off i j z -> mid_idx (lut ++ sfx) off i j z.
Proof. intros (n & p & -> & E). exists n, p. split; auto. unfold entry in *. rewrite nth_error_app1; auto. apply nth_error_Some. congruence. Qed.
(** the eight children of a tetrahedron, given the midpoint table *)
Definition children (lut : lut_t) (off : Z) (t : tet) (h : tet) (c : list tet) : Prop :=
  let '(i, j, k, m) := t in
  exists ij ik im jk jm km, mid_idx lut off i j ij /\ mid_idx lut off i k ik /\ mid_idx lut off i m im /\ mid_idx lut off j k jk /\ mid_idx lut off j m jm /\ mid_idx lut off k m km /\
    h = (im, jm, km, m) /\
    c = [(ij, ik, im, i); (ij, jk, jm, j); (ik, km, jk, k); (ik, im, ij, jm); (ik, ij, jk, jm); (ik, jk, km, jm); (ik, km, im, jm)].
Definition tet_edges (t : tet) : list (Z * Z) := let '(i, j, k, m) := t in [(i, j); (i, k); (i, m); (j, k); (j, m); (k, m)].
Lemma children_ext lut sfx off t h c : children lut off t h c -> children (lut ++ sfx) off t h c.
Proof.
  destruct t as [[[i j] k] m]. intros (ij & ik & im & jk & jm & km & H1 & H2 & H3 & H4 & H5 & H6 & H7 & H8).
  exists ij, ik, im, jk, jm, km. repeat split; auto; apply mid_idx_ext; auto.
Qed.
Definition valid_tet (V : list vec3) (t : tet) : Prop := forall v, In v (tet_nodes t) -> (0 <= v < Z.of_nat (length V))%Z.
Lemma py_get_valid {A} (V : list A) v : (0 <= v < Z.of_nat (length V))%Z -> exists p, py_get V v = Some p.
Proof.
  intros H. unfold py_get. rewrite <- (Z2Nat.id v) by lia. rewrite py_idx_nat by lia. destruct (nth_error V (Z.to_nat v)) eqn:E; eauto. apply nth_error_None in E. lia.
Qed.
Lemma subdivide_tet_ok V t lut off : valid_tet V t -> lut_ok V lut ->
  exists h c sfx, subdivide_tet V t lut off = Some (h, c, lut ++ sfx) /\ lut_ok V (lut ++ sfx) /\ children (lut ++ sfx) off t h c /\
    (forall k, In k (map fst (lut ++ sfx)) <-> In k (map fst lut) \/ exists x y, In (x, y) (tet_edges t) /\ k = edge_key x y).
Proof.
  destruct t as [[[i j] k] m]. intros Hv Hl. unfold subdivide_tet.
  destruct (py_get_valid V i) as (pi & Ei); [apply Hv; cbn; auto|]. destruct (py_get_valid V j) as (pj & Ej); [apply Hv; cbn; auto|].
  destruct (py_get_valid V k) as (pk & Ek); [apply Hv; cbn; auto|]. destruct (py_get_valid V m) as (pm & Em); [apply Hv; cbn; auto|].
  rewrite Ei, Ej, Ek, Em.
  destruct (create_midpoint_ok V i j pi pj lut off Hl Ei Ej) as (ij & l1 & s1 & -> & O1 & M1 & E1 & K1).
  destruct (create_midpoint_ok V i k pi pk l1 off O1 Ei Ek) as (ik & l2 & s2 & -> & O2 & M2 & E2 & K2).
  destruct (create_midpoint_ok V i m pi pm l2 off O2 Ei Em) as (im & l3 & s3 & -> & O3 & M3 & E3 & K3).
  destruct (create_midpoint_ok V j k pj pk l3 off O3 Ej Ek) as (jk & l4 & s4 & -> & O4 & M4 & E4 & K4).
  destruct (create_midpoint_ok V j m pj pm l4 off O4 Ej Em) as (jm & l5 & s5 & -> & O5 & M5 & E5 & K5).
  destruct (create_midpoint_ok V k m pk pm l5 off O5 Ek Em) as (km & l6 & s6 & -> & O6 & M6 & E6 & K6).
  exists (im, jm, km, m). eexists _, (s1 ++ s2 ++ s3 ++ s4 ++ s5 ++ s6).
  assert (E : lut ++ s1 ++ s2 ++ s3 ++ s4 ++ s5 ++ s6 = l6) by (rewrite E6, E5, E4, E3, E2, E1, <- !app_assoc; auto). rewrite E.
  split; [reflexivity|]. split; auto. split.
  - exists ij, ik, im, jk, jm, km.
    split; [rewrite E6, E5, E4, E3, E2; do 5 apply mid_idx_ext; auto|]. split; [rewrite E6, E5, E4, E3; do 4 apply mid_idx_ext; auto|].
    split; [rewrite E6, E5, E4; do 3 apply mid_idx_ext; auto|]. split; [rewrite E6, E5; do 2 apply mid_idx_ext; auto|].
    split; [rewrite E6; apply mid_idx_ext; auto|]. auto.
  - intros q. rewrite K6, K5, K4, K3, K2, K1. cbn [tet_edges]. split.
    + intros H. decompose [or] H; auto; right; subst; eexists _, _; (split; [|reflexivity]); cbn; auto 10.
    + intros [H|(x & y & H & ->)]; auto 10. cbn in H. decompose [or] H; try contradiction;
        match goal with E : (_, _) = (x, y) |- _ => injection E as <- <-; auto 10 end.
Qed.
Lemma subdivide_all_ok V off : forall T lut, (forall t, In t T -> valid_tet V t) -> lut_ok V lut ->
  exists hs chs sfx, subdivide_all V T lut off = Some (hs, concat chs, lut ++ sfx) /\ lut_ok V (lut ++ sfx) /\ length hs = length T /\ length chs = length T /\
    (forall e t, nth_error T e = Some t -> exists h c, nth_error hs e = Some h /\ nth_error chs e = Some c /\ children (lut ++ sfx) off t h c) /\
    (forall k, In k (map fst (lut ++ sfx)) <-> In k (map fst lut) \/ exists t x y, In t T /\ In (x, y) (tet_edges t) /\ k = edge_key x y).
Proof.
  induction T as [|t T IH]; intros lut Hv Hl.
  - exists [], [], []. cbn [subdivide_all concat length]. rewrite app_nil_r. split; auto. split; auto. split; auto. split; auto. split; [intros [|e] t; discriminate|].
    intros k. split; auto. intros [|(t & x & y & [] & _)]; auto.
  - destruct (subdivide_tet_ok V t lut off (Hv t (or_introl eq_refl)) Hl) as (h & c & s1 & E1 & O1 & C1 & K1).
    destruct (IH (lut ++ s1)) as (hs & chs & s2 & E2 & O2 & L1 & L2 & C2 & K2); auto. { intros; apply Hv; cbn; auto. }
    exists (h :: hs), (c :: chs), (s1 ++ s2). cbn [subdivide_all]. rewrite E1, E2. rewrite app_assoc. split; auto. split; auto. cbn [length]. split; auto. split; auto. split.
    + intros [|e] t' Ht; cbn in Ht.
      * assert (t = t') as <- by congruence. exists h, c. split; auto. split; auto. apply children_ext; auto.
      * destruct (C2 e t' Ht) as (h' & c' & H1 & H2 & H3). exists h', c'. auto.
    + intros q. rewrite K2, K1. split.
      * intros [[H|(x & y & H & ->)]|(t' & x & y & Ht & H & ->)]; auto; right; [exists t, x, y|exists t', x, y]; cbn; auto.
      * intros [H|(t' & x & y & [<-|Ht] & H & ->)]; auto. { left; right; eauto. } right. exists t', x, y. auto.
Qed.
Lemma fill_ok : forall l pre, (forall n x, nth_error l n = Some x -> fst (snd x) = Z.of_nat (length pre + n)) ->
  fill_midpoints l (pre ++ repeat vzero (length l)) = Some (pre ++ map (fun x => snd (snd x)) l).
Proof.
  induction l as [|[k [idx p]] l IH]; intros pre H; cbn [fill_midpoints length repeat map]; auto.
  pose proof (H 0%nat _ eq_refl) as E. cbn in E. rewrite Nat.add_0_r in E. subst idx.
  rewrite py_set_range by (rewrite app_length; cbn; lia). rewrite Nat2Z.id.
  assert (Eu : list_upd (pre ++ vzero :: repeat vzero (length l)) (length pre) p = (pre ++ [p]) ++ repeat vzero (length l)).
  { clear. induction pre as [|a pre IH]; cbn; auto. f_equal. auto. }
  rewrite Eu, IH.
  - cbn [snd]. rewrite <- app_assoc. auto.
  - intros n x Hx. rewrite app_length. cbn [length]. rewrite (H (S n) x Hx). f_equal. lia.
Qed.
