(** Lemmas about FemModel: loops as sums over contributions. *)
From Verif Require Import Base VecModel VecProofs SolverModel SolverProofs StepModel ConProofs MechModel FemModel FemSpec.
Open Scope R_scope.

Definition contribs (T : list elem) (A : list emat) : list (nat * nat * mat3) :=
  flat_map (fun tA : elem * emat => let (t, Ae) := tA in flat_map (fun i => map (fun j => (node t i, node t j, Ae i j)) (seq 0 4)) (seq 0 4)) (combine T A).
Lemma fold_flat_map {A B C} (f : C -> B -> C) (g : A -> list B) l c : fold_left f (flat_map g l) c = fold_left (fun c a => fold_left f (g a) c) l c.
Proof. revert c. induction l as [|a l IH]; intros c; cbn [flat_map fold_left]; [reflexivity|]. rewrite fold_left_app. apply IH. Qed.
Lemma fold_map {A B C} (f : C -> B -> C) (g : A -> B) l c : fold_left f (map g l) c = fold_left (fun c a => f c (g a)) l c.
Proof. revert c. induction l as [|a l IH]; intros c; cbn [map fold_left]; [reflexivity|]. apply IH. Qed.
Lemma fold_ext {A C} (f g : C -> A -> C) l c : (forall c a, f c a = g c a) -> fold_left f l c = fold_left g l c.
Proof. intros H. revert c. induction l as [|a l IH]; intros c; cbn [fold_left]; [reflexivity|]. rewrite H. apply IH. Qed.
Lemma fold_contribs {C} (f : C -> nat -> nat -> mat3 -> C) T A c :
  fold_left (fun y (tA : elem * emat) => let (t, Ae) := tA in
    fold_left (fun y i => fold_left (fun y j => f y (node t i) (node t j) (Ae i j)) (seq 0 4) y) (seq 0 4) y) (combine T A) c =
  fold_left (fun y (p : nat * nat * mat3) => let '(i, j, M) := p in f y i j M) (contribs T A) c.
Proof.
  unfold contribs. rewrite fold_flat_map. apply fold_ext. intros y [t Ae]. rewrite fold_flat_map. apply fold_ext. intros y' i.
  rewrite fold_map. reflexivity.
Qed.
Lemma contribs_valid N T A : valid_mesh N T -> Forall (fun p : nat * nat * mat3 => let '(i, j, _) := p in (i < N)%nat /\ (j < N)%nat) (contribs T A).
Proof.
  intros HT. unfold contribs. apply Forall_forall. intros [[i j] M] H. apply in_flat_map in H. destruct H as ([t Ae] & H1 & H2).
  apply in_combine_l in H1. unfold valid_mesh in HT. rewrite Forall_forall in HT. specialize (HT t H1).
  apply in_flat_map in H2. destruct H2 as (a & _ & H3). apply in_map_iff in H3. destruct H3 as (b & E & _). inversion E; subst. auto.
Qed.
(** the matrix-vector product as a sum of contributions *)
Fixpoint csum (l : list (nat * nat * mat3)) (x : field) (n : nat) : vec3 :=
  match l with [] => vzero | (i, j, M) :: r => vadd (if Nat.eqb n i then mvec M (x j) else vzero) (csum r x n) end.
Lemma prod_fold l x y n : fold_left (fun y (p : nat * nat * mat3) => let '(i, j, M) := p in fadd y i (mvec M (x j))) l y n = vadd (y n) (csum l x n).
Proof.
  revert y. induction l as [|[[i j] M] l IH]; intros y; cbn [fold_left csum]. { destruct (y n); vunf; f_equal; ring. }
  rewrite IH. unfold fadd. destruct (Nat.eqb n i); generalize (y n) (csum l x n); intros a b; [generalize (mvec M (x j)); intros c|]; vring.
Qed.
Lemma prod_csum T A x n : prod_mat_vec T A x n = csum (contribs T A) x n.
Proof.
  unfold prod_mat_vec. rewrite (fold_contribs (fun y i j M => fadd y i (mvec M (x j)))). rewrite prod_fold. unfold fzero. generalize (csum (contribs T A) x n). intros a. vring.
Qed.
(** flat layout *)
Lemma vcomp_add a b c : vcomp (vadd a b) c = vcomp a c + vcomp b c.
Proof. destruct c as [|[|c]]; reflexivity. Qed.
Lemma vcomp_zero c : vcomp vzero c = 0. Proof. destruct c as [|[|c]]; reflexivity. Qed.
Lemma slice_cond i n : Nat.leb (3 * i) n && Nat.ltb n (3 * i + 3) = Nat.eqb (n / 3) i.
Proof.
  apply eq_true_iff_eq. rewrite Bool.andb_true_iff, Nat.leb_le, Nat.ltb_lt, Nat.eqb_eq. pose proof (Nat.div_mod n 3 ltac:(lia)). pose proof (Nat.mod_upper_bound n 3 ltac:(lia)). lia.
Qed.
Lemma slice_off i n : Nat.eqb (n / 3) i = true -> (n - 3 * i = n mod 3)%nat.
Proof. intros H. apply Nat.eqb_eq in H. pose proof (Nat.div_mod n 3 ltac:(lia)). lia. Qed.
Lemma flat_fold l x y n : fold_left (fun y (p : nat * nat * mat3) => let '(i, j, M) := p in slice_add y i (mvec M (read3 x (3 * j)))) l y n = y n + vcomp (csum l (unflat x) (n / 3)) (n mod 3).
Proof.
  revert y. induction l as [|[[i j] M] l IH]; intros y; cbn [fold_left csum]. { rewrite vcomp_zero. ring. }
  rewrite IH, vcomp_add. unfold slice_add. rewrite slice_cond. destruct (Nat.eqb (n / 3) i) eqn:E.
  - rewrite (slice_off i n E). change (read3 x (3 * j)) with (unflat x j). ring.
  - rewrite vcomp_zero. ring.
Qed.
Lemma prod_flat T A x n : prod_mat_vec_flat T A x n = flat (prod_mat_vec T A (unflat x)) n.
Proof.
  unfold prod_mat_vec_flat. rewrite (fold_contribs (fun y i j M => slice_add y i (mvec M (read3 x (3 * j))))). rewrite flat_fold.
  unfold flat. rewrite prod_csum. unfold vzeros. ring.
Qed.
Lemma unflat_flat x i : unflat (flat x) i = x i.
Proof.
  unfold unflat, flat. assert (H : forall c, (c < 3)%nat -> ((3 * i + c) / 3 = i /\ (3 * i + c) mod 3 = c)%nat).
  { intros c Hc. split; [symmetry; apply (Nat.div_unique _ 3 i c); lia|symmetry; apply (Nat.mod_unique _ 3 i c); lia]. }
  destruct (H 0%nat) as [A B]; [lia|]. rewrite Nat.add_0_r in A, B. rewrite A, B. destruct (H 1%nat) as [C D]; [lia|]. rewrite C, D. destruct (H 2%nat) as [E F]; [lia|]. rewrite E, F.
  destruct (x i); reflexivity.
Qed.
Lemma flat_unflat x n : flat (unflat x) n = x n.
Proof.
  unfold flat, unflat. pose proof (Nat.div_mod n 3 ltac:(lia)) as H. pose proof (Nat.mod_upper_bound n 3 ltac:(lia)) as B.
  destruct (n mod 3) as [|[|[|c]]] eqn:E; cbn [vcomp vx vy vz]; [| | |lia]; f_equal; lia.
Qed.
(** the assembled matrix *)
Lemma tsum_block n x r c A : tsum n (flat x) (block_triplets (3 * r) (3 * c) A) = if Nat.eqb (n / 3) r then vcomp (mvec A (x c)) (n mod 3) else 0.
Proof.
  assert (X : x c = mkV (flat x (3 * c)%nat) (flat x (3 * c + 1)%nat) (flat x (3 * c + 2)%nat)) by (symmetry; apply (unflat_flat x c)).
  rewrite X. pose proof (Nat.div_mod n 3 ltac:(lia)) as H. pose proof (Nat.mod_upper_bound n 3 ltac:(lia)) as B.
  unfold block_triplets, tsum. cbn [fold_right].
  set (u0 := flat x (3 * c)%nat). set (u1 := flat x (3 * c + 1)%nat). set (u2 := flat x (3 * c + 2)%nat).
  destruct (Nat.eqb_spec (n / 3) r) as [E|E].
  - destruct (n mod 3) as [|[|[|q]]] eqn:Q; [| | |lia].
    + assert (N : n = (3 * r)%nat) by lia. rewrite N.
      repeat match goal with |- context [Nat.eqb ?a ?b] => destruct (Nat.eqb_spec a b); [|]; try lia end. destruct A; cbn [vcomp]; vunf; ring.
    + assert (N : n = (3 * r + 1)%nat) by lia. rewrite N.
      repeat match goal with |- context [Nat.eqb ?a ?b] => destruct (Nat.eqb_spec a b); [|]; try lia end. destruct A; cbn [vcomp]; vunf; ring.
    + assert (N : n = (3 * r + 2)%nat) by lia. rewrite N.
      repeat match goal with |- context [Nat.eqb ?a ?b] => destruct (Nat.eqb_spec a b); [|]; try lia end. destruct A; cbn [vcomp]; vunf; ring.
  - repeat match goal with |- context [Nat.eqb ?a ?b] => destruct (Nat.eqb_spec a b); [exfalso; lia|] end. ring.
Qed.
Definition lut_triplets (l : lut) : list triplet :=
  concat (map (fun kv : (nat * nat) * mat3 => block_triplets (3 * fst (fst kv)) (3 * snd (fst kv)) (snd kv)) l).
Lemma nkey_eqb_eq a b : nkey_eqb a b = true -> a = b.
Proof. unfold nkey_eqb. rewrite Bool.andb_true_iff, !Nat.eqb_eq. destruct a, b; cbn. intros [-> ->]. reflexivity. Qed.
Lemma mvec_m3add A B v : mvec (m3add A B) v = vadd (mvec A v) (mvec B v).
Proof. destruct A, B, v. unfold m3add. vunf. f_equal; ring. Qed.
Lemma lut_add_tsum n x l r c A : tsum n (flat x) (lut_triplets (lut_add l (r, c) A)) = tsum n (flat x) (lut_triplets l) + tsum n (flat x) (block_triplets (3 * r) (3 * c) A).
Proof.
  induction l as [|[k B] l IH]; cbn [lut_add].
  - unfold lut_triplets. cbn [map concat fst snd]. rewrite tsum_app. unfold tsum at 2 3. cbn [fold_right]. ring.
  - destruct (nkey_eqb k (r, c)) eqn:E.
    + apply nkey_eqb_eq in E. subst k. unfold lut_triplets. cbn [map concat fst snd]. rewrite !tsum_app, !tsum_block, mvec_m3add.
      destruct (Nat.eqb (n / 3) r); [rewrite vcomp_add|]; ring.
    + unfold lut_triplets in *. cbn [map concat]. rewrite !tsum_app, IH. ring.
Qed.
Lemma lut_fold_tsum n x cs l : tsum n (flat x) (lut_triplets (fold_left (fun l (p : nat * nat * mat3) => let '(i, j, M) := p in lut_add l (i, j) M) cs l)) =
  tsum n (flat x) (lut_triplets l) + vcomp (csum cs x (n / 3)) (n mod 3).
Proof.
  revert l. induction cs as [|[[i j] M] cs IH]; intros l; cbn [fold_left csum]. { rewrite vcomp_zero. ring. }
  rewrite IH, lut_add_tsum, tsum_block, vcomp_add. destruct (Nat.eqb (n / 3) i); [|rewrite vcomp_zero]; ring.
Qed.
Lemma lut_add_keys l k A k' B : In (k', B) (lut_add l k A) -> k' = k \/ exists B', In (k', B') l.
Proof.
  induction l as [|[k0 B0] l IH]; cbn [lut_add]; [intros [E|[]]; left; congruence|].
  destruct (nkey_eqb k0 k); intros [E|H].
  - right. exists B0. left. congruence.
  - right. exists B. right. exact H.
  - right. exists B. left. congruence.
  - destruct (IH H) as [->|[B' H']]; [left; reflexivity|right; exists B'; right; exact H'].
Qed.
Lemma lut_fold_keys N cs l : Forall (fun p : nat * nat * mat3 => let '(i, j, _) := p in (i < N)%nat /\ (j < N)%nat) cs ->
  (forall k A, In (k, A) l -> (fst k < N /\ snd k < N)%nat) ->
  forall k A, In (k, A) (fold_left (fun l (p : nat * nat * mat3) => let '(i, j, M) := p in lut_add l (i, j) M) cs l) -> (fst k < N /\ snd k < N)%nat.
Proof.
  revert l. induction cs as [|[[i j] M] cs IH]; intros l HF H; cbn [fold_left]; [exact H|]. inversion HF; subst. apply IH; [assumption|].
  intros k A Hk. apply lut_add_keys in Hk. destruct Hk as [->|[B' Hb]]; [cbn; tauto|apply (H k B' Hb)].
Qed.
Lemma assembly_product N T A x n : valid_mesh N T -> mdotv (3 * N) (assembly_csr T A) (flat x) n = flat (prod_mat_vec T A x) n.
Proof.
  intros HT. unfold assembly_csr, assembly_coo. fold (lut_triplets (assembly_lut T A)).
  assert (E : assembly_lut T A = fold_left (fun l (p : nat * nat * mat3) => let '(i, j, M) := p in lut_add l (i, j) M) (contribs T A) []).
  { unfold assembly_lut. apply (fold_contribs (fun l i j M => lut_add l (i, j) M)). }
  rewrite csr_dot.
  - rewrite E, lut_fold_tsum. unfold flat. rewrite prod_csum. unfold tsum, lut_triplets. cbn [map concat fold_right]. ring.
  - unfold lut_triplets. apply Forall_forall. intros [[r c] d] H. apply in_concat in H. destruct H as (b & H1 & H2). apply in_map_iff in H1.
    destruct H1 as ([k B] & Eb & H1). rewrite E in H1. pose proof (lut_fold_keys N _ [] (contribs_valid N T A HT) (fun k A HH => match HH with end) k B H1) as [_ K2].
    subst b. cbn [fst snd] in H2. unfold block_triplets in H2. cbn [In] in H2.
    repeat (destruct H2 as [H2|H2]; [injection H2 as _ <- _; lia|]). destruct H2.
Qed.

(** ** virtual work *)
Lemma work_fadd N y i v h : (i < N)%nat -> work N (fadd y i v) h = work N y h + vdot v (h i).
Proof.
  intros Hi. unfold work. rewrite (rsum_upd N i (fun n => vdot (fadd y i v n) (h n)) (fun n => vdot (y n) (h n)) Hi).
  - unfold fadd. rewrite Nat.eqb_refl. generalize (y i) (h i). intros a b. vring.
  - intros n Hn. unfold fadd. destruct (Nat.eqb_spec n i); [contradiction|reflexivity].
Qed.
Lemma work_fzero N h : work N fzero h = 0.
Proof. unfold work. apply rsum_zero. intros n _. unfold fzero. generalize (h n). intros a. vring. Qed.
Lemma work_ext N f g h : (forall n, (n < N)%nat -> f n = g n) -> work N f h = work N g h.
Proof. intros H. unfold work. apply rsum_ext. intros i Hi. rewrite H by exact Hi. reflexivity. Qed.
Fixpoint cwork (l : list (nat * nat * mat3)) (x h : field) : R :=
  match l with [] => 0 | (i, j, M) :: r => vdot (mvec M (x j)) (h i) + cwork r x h end.
Lemma prod_fold_work N l x y h : Forall (fun p : nat * nat * mat3 => let '(i, j, _) := p in (i < N)%nat /\ (j < N)%nat) l ->
  work N (fold_left (fun y (p : nat * nat * mat3) => let '(i, j, M) := p in fadd y i (mvec M (x j))) l y) h = work N y h + cwork l x h.
Proof.
  revert y. induction l as [|[[i j] M] l IH]; intros y HF; cbn [fold_left cwork]; [ring|]. inversion HF as [|? ? Hij HF']; subst. destruct Hij as [Hi Hj].
  rewrite IH by exact HF'. rewrite work_fadd by exact Hi. ring.
Qed.
Lemma prod_work N T A x h : valid_mesh N T -> work N (prod_mat_vec T A x) h = cwork (contribs T A) x h.
Proof.
  intros HT. unfold prod_mat_vec. rewrite (fold_contribs (fun y i j M => fadd y i (mvec M (x j)))). rewrite (prod_fold_work N _ x) by (apply contribs_valid; exact HT).
  rewrite work_fzero. ring.
Qed.
Lemma cwork_app a b x h : cwork (a ++ b) x h = cwork a x h + cwork b x h.
Proof. induction a as [|[[i j] M] a IH]; cbn [app cwork]; [ring|]. rewrite IH. ring. Qed.
(** one tetrahedron *)
Definition ework (t : elem) (Ae : emat) (x h : field) : R := cwork (flat_map (fun i => map (fun j => (node t i, node t j, Ae i j)) (seq 0 4)) (seq 0 4)) x h.
Lemma contribs_work T A x h : cwork (contribs T A) x h = sum (map (fun tA : elem * emat => ework (fst tA) (snd tA) x h) (combine T A)).
Proof.
  unfold contribs. induction (combine T A) as [|[t Ae] l IH]; cbn [flat_map map sum fold_right]; [reflexivity|]. rewrite cwork_app, IH. reflexivity.
Qed.
Lemma mvec_scaled_id s v : mvec (m3scale s mid) v = vscale s v.
Proof. destruct v. unfold m3scale. vunf. f_equal; ring. Qed.
Lemma mvec_mzero v : mvec mzero v = vzero. Proof. destruct v. vunf. f_equal; ring. Qed.
Lemma m3scale_scale s r A : m3scale s (m3scale r A) = m3scale (s * r) A.
Proof. destruct A. unfold m3scale. cbn. f_equal; ring. Qed.
Lemma m3scale_zero s : m3scale s mzero = mzero. Proof. unfold m3scale, mzero. cbn. f_equal; ring. Qed.
(** the elements of the lumped and the consistent matrices *)
Definition lumped_form (t : elem) (x h : field) : R :=
  (vdot (x (node t 0)) (h (node t 0)) + vdot (x (node t 1)) (h (node t 1)) + vdot (x (node t 2)) (h (node t 2)) + vdot (x (node t 3)) (h (node t 3))) / 4.
Definition sum4 (x : field) (t : elem) : vec3 := vadd (vadd (vadd (x (node t 0)) (x (node t 1))) (x (node t 2))) (x (node t 3)).
Definition consistent_form (t : elem) (x h : field) : R := lumped_form t x h / 5 + vdot (sum4 x t) (sum4 h t) / 20.
Definition elem_form (lumped : bool) := if lumped then lumped_form else consistent_form.
Lemma vdot_scale_l s a b : vdot (vscale s a) b = s * vdot a b. Proof. destruct a, b; vunf; ring. Qed.
Lemma vdot_zero_l b : vdot vzero b = 0. Proof. destruct b; vunf; ring. Qed.
Lemma ework_NN lumped c v t x h : ework t (fun i j => m3scale v (m3scale c (NN lumped i j))) x h = c * v * elem_form lumped t x h.
Proof.
  unfold ework. unfold NN. destruct lumped; cbn [seq flat_map map app cwork Nat.eqb elem_form].
  - unfold lumped_form. rewrite !m3scale_zero, !mvec_mzero, !m3scale_scale, !mvec_scaled_id, !vdot_zero_l, !vdot_scale_l. field.
  - unfold consistent_form, lumped_form, sum4. rewrite !m3scale_scale, !mvec_scaled_id, !vdot_scale_l.
    generalize (x (node t 0)) (x (node t 1)) (x (node t 2)) (x (node t 3)) (h (node t 0)) (h (node t 1)) (h (node t 2)) (h (node t 3)). intros [a1 a2 a3] [b1 b2 b3] [c1 c2 c3] [d1 d2 d3] [e1 e2 e3] [f1 f2 f3] [g1 g2 g3] [i1 i2 i3]. vunf. field.
Qed.
Lemma combine_map_r {A B C} (f : B -> C) (l : list A) (m : list B) : combine l (map f m) = map (fun p => (fst p, f (snd p))) (combine l m).
Proof. revert m. induction l as [|a l IH]; intros [|b m]; cbn; try reflexivity. rewrite IH. reflexivity. Qed.
(** the virtual work of the product with the mass or the damping matrix *)
Lemma mass_work N T vol c lumped x h : valid_mesh N T ->
  work N (prod_mat_vec T (compute_mass_element_array c vol lumped) x) h = sum (map (fun tv : elem * R => c * snd tv * elem_form lumped (fst tv) x h) (combine T vol)).
Proof.
  intros HT. rewrite (prod_work N T _ x h HT), contribs_work. unfold compute_mass_element_array. rewrite combine_map_r, map_map. f_equal. apply map_ext.
  intros [t v]. cbn [fst snd]. apply ework_NN.
Qed.
Lemma elem_form_sym lumped t x h : elem_form lumped t x h = elem_form lumped t h x.
Proof.
  unfold elem_form, consistent_form, lumped_form. assert (C : forall a b, vdot a b = vdot b a) by (intros [] []; vunf; ring).
  destruct lumped; rewrite !(C (x _)), ?(C (sum4 x t)); reflexivity.
Qed.
Lemma vdot_self_nonneg a : 0 <= vdot a a. Proof. destruct a; vunf; nra. Qed.
Lemma lumped_nonneg t x : 0 <= lumped_form t x x.
Proof. unfold lumped_form. pose proof (vdot_self_nonneg (x (node t 0))). pose proof (vdot_self_nonneg (x (node t 1))). pose proof (vdot_self_nonneg (x (node t 2))). pose proof (vdot_self_nonneg (x (node t 3))). lra. Qed.
Lemma elem_form_nonneg lumped t x : 0 <= elem_form lumped t x x.
Proof. destruct lumped; cbn [elem_form]; [apply lumped_nonneg|]. unfold consistent_form. pose proof (lumped_nonneg t x). pose proof (vdot_self_nonneg (sum4 x t)). lra. Qed.
Lemma elem_form_pos lumped t x a : (a < 4)%nat -> x (node t a) <> vzero -> 0 < elem_form lumped t x x.
Proof.
  intros Ha Hx. assert (L : 0 < lumped_form t x x).
  { unfold lumped_form. pose proof (vdot_self_nonneg (x (node t 0))). pose proof (vdot_self_nonneg (x (node t 1))). pose proof (vdot_self_nonneg (x (node t 2))). pose proof (vdot_self_nonneg (x (node t 3))).
    assert (P : 0 < vdot (x (node t a)) (x (node t a))).
    { clear - Hx. destruct (x (node t a)) as [p q r]. vunf. destruct (Req_dec p 0) as [->|]; [destruct (Req_dec q 0) as [->|]; [destruct (Req_dec r 0) as [->|]; [exfalso; apply Hx; reflexivity|]|]|]; nra. }
    destruct a as [|[|[|[|a]]]]; [lra|lra|lra|lra|lia]. }
  destruct lumped; cbn [elem_form]; [exact L|]. unfold consistent_form. pose proof (vdot_self_nonneg (sum4 x t)). lra.
Qed.
Lemma elem_form_const lumped t a h : elem_form lumped t (fun _ => a) h = vdot a (sum4 h t) / 4.
Proof.
  destruct lumped; unfold elem_form, consistent_form, lumped_form, sum4; generalize (h (node t 0)) (h (node t 1)) (h (node t 2)) (h (node t 3)); intros e f g i;
  destruct a, e, f, g, i; vunf; field.
Qed.
Lemma sum_nonneg l : Forall (fun x => 0 <= x) l -> 0 <= sum l.
Proof. induction 1 as [|y l H1 H2 IH]; unfold sum in *; cbn [fold_right]; lra. Qed.
Lemma sum_pos l : Forall (fun x => 0 <= x) l -> (exists x, In x l /\ 0 < x) -> 0 < sum l.
Proof.
  induction 1 as [|y l Hy Hl IH]; intros (x & Hx & P); [destruct Hx|]. unfold sum at 1. cbn [fold_right]. pose proof (sum_nonneg l Hl). destruct Hx as [->|Hx]; [unfold sum in *; lra|].
  assert (0 < sum l) by (apply IH; exists x; auto). unfold sum in *. lra.
Qed.
Lemma sum_scale c l : sum (map (Rmult c) l) = c * sum l.
Proof. induction l as [|a l IH]; cbn; [ring|]. unfold sum in IH. rewrite IH. ring. Qed.
Lemma vtotal_dot N f a : vdot a (vtotal N f) = work N f (fun _ => a).
Proof.
  unfold work. induction N as [|n IH]; cbn [vtotal rsum]; [destruct a; vunf; ring|]. rewrite <- IH. generalize (vtotal n f) (f n). intros b c. destruct a, b, c; vunf; ring.
Qed.
Lemma vdot_ext a b : (forall c, vdot c a = vdot c b) -> a = b.
Proof.
  intros H. pose proof (H (mkV 1 0 0)) as X. pose proof (H (mkV 0 1 0)) as Y. pose proof (H (mkV 0 0 1)) as Z. destruct a, b. revert X Y Z. vunf. intros X Y Z. f_equal; lra.
Qed.
Lemma torque_dot N x f w : vdot w (torque N x f) = work N f (fun n => vcross w (x n)).
Proof.
  unfold torque. rewrite vtotal_dot. unfold work. apply rsum_ext. intros i _. generalize (x i) (f i). intros a b. destruct w, a, b; vunf; ring.
Qed.
Lemma gravity_work N T vol rho g h : valid_mesh N T ->
  work N (compute_gravity_forces T vol rho g) h = sum (map (fun tv : elem * R => rho * snd tv / 4 * vdot g (sum4 h (fst tv))) (combine T vol)).
Proof.
  intros HT. unfold compute_gravity_forces.
  assert (H : Forall (fun tv : elem * R => forall a, (node (fst tv) a < N)%nat) (combine T vol)).
  { apply Forall_forall. intros [t v] Hi. apply in_combine_l in Hi. unfold valid_mesh in HT. rewrite Forall_forall in HT. apply HT. exact Hi. }
  assert (G : forall y, work N (fold_left (fun Fg (tv : elem * R) => let (t, v) := tv in let dF := vscale (rho * v / 4) g in
     fadd (fadd (fadd (fadd Fg (node t 0) dF) (node t 1) dF) (node t 2) dF) (node t 3) dF) (combine T vol) y) h = work N y h + sum (map (fun tv : elem * R => rho * snd tv / 4 * vdot g (sum4 h (fst tv))) (combine T vol))).
  { induction H as [|[t v] l Hv Hl IH]; intros y; cbn [fold_left map sum fold_right]; [ring|]. rewrite IH. rewrite !work_fadd by apply Hv. cbn [fst snd]. unfold sum4.
    rewrite !vdot_scale_l. generalize (h (node t 0)) (h (node t 1)) (h (node t 2)) (h (node t 3)). intros e f k i. unfold sum. destruct g, e, f, k, i; vunf; ring. }
  rewrite G, work_fzero. ring.
Qed.
Lemma work_delta N f n v : (n < N)%nat -> work N f (fun k => if Nat.eqb k n then v else vzero) = vdot (f n) v.
Proof.
  intros Hn. unfold work. rewrite (rsum_single N n); [rewrite Nat.eqb_refl; reflexivity|exact Hn|]. intros j Hj Hne. destruct (Nat.eqb_spec j n) as [E|E]; [contradiction|]. generalize (f j). intros a. vring.
Qed.
(** fields below N are determined by their virtual work *)
Lemma work_inj N f g : (forall h, work N f h = work N g h) -> forall n, (n < N)%nat -> f n = g n.
Proof.
  intros H n Hn. apply vdot_ext. intros c. specialize (H (fun k => if Nat.eqb k n then c else vzero)). rewrite !work_delta in H by exact Hn.
  assert (C : forall a b, vdot a b = vdot b a) by (intros [] []; vunf; ring). rewrite (C c (f n)), (C c (g n)). exact H.
Qed.
