(** C101-C105: assembly, mass, damping and gravity, face vectors, deformation gradient of the soft-body simulator. *)
From Verif Require Import Base VecModel VecProofs SolverModel SolverProofs StepModel ConProofs MechModel MechSpec MechProofs PolarProofs FemModel FemSpec FemProofs FemProofs2.
Open Scope R_scope.

(** ** C101: assembling a matrix from element matrices *)
(** multiplying by the assembled sparse matrix is the same as multiplying element by element, for every mesh, every element
    array and every vector; both layouts of prod_mat_vec agree *)
Theorem C101_assembly N T A x : valid_mesh N T -> forall n, mdotv (3 * N) (assembly_csr T A) (flat x) n = flat (prod_mat_vec T A x) n.
Proof. intros HT n. apply assembly_product. exact HT. Qed.
Theorem C101_layouts T A x : (forall n, prod_mat_vec_flat T A (flat x) n = flat (prod_mat_vec T A x) n).
Proof.
  intros n. rewrite prod_flat. unfold flat at 1 3. rewrite !prod_csum. f_equal. induction (contribs T A) as [|[[i j] M] l IH]; cbn [csum]; [reflexivity|]. rewrite IH, unflat_flat. reflexivity.
Qed.
(** what prod_mat_vec computes: node n receives, from every tetrahedron e and every pair (i, j) of its corners with
    T[e,i] = n, the vector A[e,i,j] x[T[e,j]] *)
Definition corner_pairs : list (nat * nat) := list_prod (seq 0 4) (seq 0 4).
Definition pick (n : nat) (m : nat) (v : vec3) : vec3 := if Nat.eqb m n then v else vzero.
Definition vlist_sum (l : list vec3) : vec3 := fold_right vadd vzero l.
Theorem C101_meaning T A x n : prod_mat_vec T A x n =
  vlist_sum (map (fun tA : elem * emat => vlist_sum (map (fun ij => pick n (node (fst tA) (fst ij)) (mvec (snd tA (fst ij) (snd ij)) (x (node (fst tA) (snd ij))))) corner_pairs)) (combine T A)).
Proof.
  rewrite prod_csum. unfold contribs. induction (combine T A) as [|[t Ae] l IH]; [reflexivity|]. cbn [flat_map map vlist_sum fold_right fst snd].
  assert (AP : forall a b, csum (a ++ b) x n = vadd (csum a x n) (csum b x n)).
  { clear. intros a b. induction a as [|[[i j] M] a IH]; cbn [app csum]; [generalize (csum b x n); intros v; vring|]. rewrite IH. generalize (csum a x n) (csum b x n) (if Nat.eqb n i then mvec M (x j) else vzero). intros. vring. }
  rewrite AP, IH. f_equal. clear. unfold corner_pairs, pick. cbn [seq list_prod map app flat_map csum vlist_sum fold_right fst snd]. rewrite !(Nat.eqb_sym n). reflexivity.
Qed.
Ltac vmesh := unfold valid_mesh; repeat (apply Forall_cons; [intros a; destruct a as [|[|[|a]]]; cbn; lia|]); apply Forall_nil.
Example C101_nonvacuous : valid_mesh 5 [(0, 1, 2, 3); (1, 2, 3, 4)]%nat /\
  (forall n, (n < 15)%nat -> n = 3%nat -> mdotv 15 (assembly_csr [(0, 1, 2, 3); (1, 2, 3, 4)]%nat [(fun _ _ => mid); (fun _ _ => mid)]) (flat (fun _ => mkV 1 0 0)) n = 8).
Proof.
  assert (V : valid_mesh 5 [(0, 1, 2, 3); (1, 2, 3, 4)]%nat) by vmesh.
  split; [exact V|]. intros n _ ->. rewrite (C101_assembly 5 _ _ _ V). unfold flat. change (3 / 3)%nat with 1%nat. change (3 mod 3)%nat with 0%nat.
  rewrite C101_meaning. unfold corner_pairs, pick. cbn [seq list_prod map app fst snd node combine Nat.eqb vlist_sum fold_right]. munf. cbn [vcomp vx]. ring.
Qed.

(** ** C102: the mass matrix *)
Lemma flat_work N f h : rsum (3 * N) (fun i => flat f i * flat h i) = work N f h.
Proof.
  unfold work. induction N as [|n IH]; [reflexivity|]. replace (3 * S n)%nat with (3 * n + 3)%nat by lia. rewrite rsum_add, IH. cbn [rsum]. f_equal.
  rewrite Nat.add_0_r. pose proof (unflat_flat f n) as A. pose proof (unflat_flat h n) as B. unfold unflat in A, B. rewrite <- A, <- B. vunf. ring.
Qed.
Lemma flat_ext f g : (forall i, f i = g i) -> forall n, flat f n = flat g n.
Proof. intros H n. unfold flat. rewrite H. reflexivity. Qed.
(** one entry of the assembled matrix *)
Definition unit_vec (i : nat) : vec := fun k => if Nat.eqb k i then 1 else 0.
Lemma entry_work N T A i j : valid_mesh N T -> (i < 3 * N)%nat -> (j < 3 * N)%nat -> assembly_csr T A i j = work N (prod_mat_vec T A (unflat (unit_vec j))) (unflat (unit_vec i)).
Proof.
  intros HT Hi Hj. transitivity (mdotv (3 * N) (assembly_csr T A) (unit_vec j) i).
  { unfold mdotv. rewrite (rsum_single (3 * N) j); [unfold unit_vec; rewrite Nat.eqb_refl; ring|exact Hj|]. intros k Hk Hne. unfold unit_vec. destruct (Nat.eqb_spec k j); [contradiction|ring]. }
  transitivity (mdotv (3 * N) (assembly_csr T A) (flat (unflat (unit_vec j))) i).
  { unfold mdotv. apply rsum_ext. intros k _. rewrite flat_unflat. reflexivity. }
  rewrite (assembly_product N T A _ i HT). rewrite <- flat_work. rewrite (rsum_single (3 * N) i).
  - rewrite flat_unflat. unfold unit_vec at 3. rewrite Nat.eqb_refl. ring.
  - exact Hi.
  - intros k Hk Hne. rewrite flat_unflat. unfold unit_vec at 2. destruct (Nat.eqb_spec k i); [contradiction|ring].
Qed.
Definition mass_matrix (T : list elem) (vol : list R) (rho : R) (lumped : bool) : mat := assembly_csr T (compute_mass_element_array rho vol lumped).
(** symmetric *)
Theorem C102_symmetric N T vol rho lumped i j : valid_mesh N T -> (i < 3 * N)%nat -> (j < 3 * N)%nat -> mass_matrix T vol rho lumped i j = mass_matrix T vol rho lumped j i.
Proof.
  intros HT Hi Hj. unfold mass_matrix. rewrite (entry_work N T _ i j HT Hi Hj), (entry_work N T _ j i HT Hj Hi). rewrite !(mass_work N T vol rho lumped _ _ HT).
  f_equal. apply map_ext. intros [t v]. rewrite elem_form_sym. reflexivity.
Qed.
(** positive definite as soon as the material has mass, no tetrahedron is degenerate and every node belongs to one *)
Theorem C102_positive_definite N T vol rho lumped u : valid_mesh N T -> length T = length vol -> 0 < rho -> Forall (fun v => 0 < v) vol ->
  (forall n, (n < N)%nat -> exists t a, In t T /\ (a < 4)%nat /\ node t a = n) -> (exists i, (i < 3 * N)%nat /\ u i <> 0) ->
  0 < rsum (3 * N) (fun i => u i * mdotv (3 * N) (mass_matrix T vol rho lumped) u i).
Proof.
  intros HT HL Hr Hv Hc (i & Hi & Hui).
  assert (E : rsum (3 * N) (fun i => u i * mdotv (3 * N) (mass_matrix T vol rho lumped) u i) = work N (prod_mat_vec T (compute_mass_element_array rho vol lumped) (unflat u)) (unflat u)).
  { rewrite <- flat_work. apply rsum_ext. intros k _. rewrite Rmult_comm, flat_unflat. f_equal. rewrite <- (assembly_product N T _ (unflat u) k HT).
    unfold mdotv. apply rsum_ext. intros l _. rewrite flat_unflat. reflexivity. }
  rewrite E, (mass_work N T vol rho lumped _ _ HT). assert (Hn : (i / 3 < N)%nat) by (apply Nat.div_lt_upper_bound; lia).
  destruct (Hc (i / 3)%nat Hn) as (t & a & Ht & Ha & Hna). 
  assert (X : unflat u (node t a) <> vzero). { rewrite Hna. intros Z. apply Hui. rewrite <- (flat_unflat u i). unfold flat. rewrite Z. apply vcomp_zero. }
  assert (C : exists v, In (t, v) (combine T vol)).
  { clear - Ht HL. revert vol HL. induction T as [|t0 T IH]; intros [|v0 vol] HL; cbn in HL; try discriminate; [destruct Ht|]. destruct Ht as [->|Ht]; [exists v0; left; reflexivity|]. destruct (IH Ht vol ltac:(lia)) as [v Hv]. exists v. right. exact Hv. }
  destruct C as [v Cv]. apply sum_pos.
  - apply Forall_forall. intros r Hr'. apply in_map_iff in Hr'. destruct Hr' as ([t' v'] & <- & Hin). cbn [fst snd]. apply in_combine_r in Hin. rewrite Forall_forall in Hv. specialize (Hv v' Hin). cbv beta in Hv.
    apply Rmult_le_pos; [nra|apply elem_form_nonneg].
  - exists (rho * v * elem_form lumped t (unflat u) (unflat u)). split; [apply in_map_iff; exists (t, v); split; [reflexivity|exact Cv]|].
    apply in_combine_r in Cv. rewrite Forall_forall in Hv. specialize (Hv v Cv). cbv beta in Hv. apply Rmult_lt_0_compat; [nra|]. apply (elem_form_pos lumped t (unflat u) a Ha X).
Qed.
(** hence it is invertible: only the zero velocity has zero momentum *)
Theorem C102_injective N T vol rho lumped u : valid_mesh N T -> length T = length vol -> 0 < rho -> Forall (fun v => 0 < v) vol ->
  (forall n, (n < N)%nat -> exists t a, In t T /\ (a < 4)%nat /\ node t a = n) ->
  (forall i, (i < 3 * N)%nat -> mdotv (3 * N) (mass_matrix T vol rho lumped) u i = 0) -> forall i, (i < 3 * N)%nat -> u i = 0.
Proof.
  intros HT HL Hr Hv Hc Z i Hi. destruct (Req_dec (u i) 0) as [E|E]; [exact E|]. exfalso.
  pose proof (C102_positive_definite N T vol rho lumped u HT HL Hr Hv Hc (ex_intro _ i (conj Hi E))) as P. rewrite rsum_zero in P; [lra|]. intros k Hk. rewrite Z by exact Hk. ring.
Qed.
(** the total mass is density times volume: a body translating with velocity a has momentum (rho vol) a *)
Theorem C102_total_mass N T vol rho lumped a : valid_mesh N T -> length T = length vol ->
  vtotal N (prod_mat_vec T (compute_mass_element_array rho vol lumped) (fun _ => a)) = vscale (rho * sum vol) a.
Proof.
  intros HT HL. apply vdot_ext. intros c. rewrite vtotal_dot, (mass_work N T vol rho lumped _ _ HT). revert vol HL. clear HT. induction T as [|t T IH]; intros [|v vol] HL; cbn in HL; try discriminate.
  - cbn. destruct a, c; vunf; ring.
  - cbn [combine map sum fold_right fst snd]. unfold sum in IH. rewrite IH by lia. rewrite elem_form_const. unfold sum4. destruct a, c. vunf. field.
Qed.
(** lumping makes the matrix diagonal and keeps the total mass *)
Theorem C102_lumped_diagonal N T vol rho i j : valid_mesh N T -> (i < 3 * N)%nat -> (j < 3 * N)%nat -> i <> j -> mass_matrix T vol rho true i j = 0.
Proof.
  intros HT Hi Hj Hne. unfold mass_matrix. rewrite (entry_work N T _ i j HT Hi Hj), (mass_work N T vol rho true _ _ HT).
  assert (Z : forall n, vdot (unflat (unit_vec j) n) (unflat (unit_vec i) n) = 0).
  { intros n. unfold unflat, unit_vec. vunf. repeat match goal with |- context [Nat.eqb ?a ?b] => destruct (Nat.eqb_spec a b) end; try ring; exfalso; lia. }
  induction (combine T vol) as [|[t v] l IH]; cbn [map sum fold_right]; [reflexivity|]. unfold sum in IH. rewrite IH. cbn [elem_form fst snd]. unfold lumped_form. rewrite !Z. field.
Qed.
Definition one_tet : list elem := [(0, 1, 2, 3)]%nat.
Lemma one_tet_valid : valid_mesh 4 one_tet. Proof. vmesh. Qed.
Example C102_nonvacuous : 0 < rsum 12 (fun i => unit_vec 5 i * mdotv 12 (mass_matrix one_tet [1] 1000 false) (unit_vec 5) i).
Proof.
  apply (C102_positive_definite 4 one_tet [1] 1000 false (unit_vec 5)); [apply one_tet_valid|reflexivity|lra|repeat constructor; lra| |exists 5%nat; split; [lia|unfold unit_vec; cbn; lra]].
  intros n Hn. exists (0, 1, 2, 3)%nat, n. split; [left; reflexivity|]. split; [exact Hn|]. destruct n as [|[|[|[|n]]]]; try reflexivity. lia.
Qed.

(** ** C103: damping and gravity *)
(** damping forces never do positive work, whatever the motion *)
Theorem C103_damping_dissipates N T vol c lumped u : valid_mesh N T -> 0 <= c -> Forall (fun v => 0 <= v) vol ->
  work N (compute_damping_forces T (compute_damping_element_array c vol lumped) u) u <= 0.
Proof.
  intros HT Hc Hv. change (compute_damping_element_array c vol lumped) with (compute_mass_element_array c vol lumped).
  assert (E : work N (compute_damping_forces T (compute_mass_element_array c vol lumped) u) u = - work N (prod_mat_vec T (compute_mass_element_array c vol lumped) u) u).
  { unfold work, compute_damping_forces. rewrite <- (Rmult_1_l (rsum N (fun n => vdot (prod_mat_vec T (compute_mass_element_array c vol lumped) u n) (u n)))). rewrite Ropp_mult_distr_l, <- rsum_scale.
    apply rsum_ext. intros i _. generalize (prod_mat_vec T (compute_mass_element_array c vol lumped) u i) (u i). intros a b. vring. }
  rewrite E, (mass_work N T vol c lumped _ _ HT). assert (0 <= sum (map (fun tv : elem * R => c * snd tv * elem_form lumped (fst tv) u u) (combine T vol))); [|lra].
  apply sum_nonneg. apply Forall_forall. intros r Hr. apply in_map_iff in Hr. destruct Hr as ([t v] & <- & Hin). cbn [fst snd]. apply in_combine_r in Hin. rewrite Forall_forall in Hv. specialize (Hv v Hin). cbv beta in Hv.
  apply Rmult_le_pos; [nra|apply elem_form_nonneg].
Qed.
(** with a positive coefficient they stop every motion: the work is zero only for bodies at rest *)
Theorem C103_damping_strict N T vol c lumped u : valid_mesh N T -> length T = length vol -> 0 < c -> Forall (fun v => 0 < v) vol ->
  (forall n, (n < N)%nat -> exists t a, In t T /\ (a < 4)%nat /\ node t a = n) -> (exists n, (n < N)%nat /\ u n <> vzero) ->
  work N (compute_damping_forces T (compute_damping_element_array c vol lumped) u) u < 0.
Proof.
  intros HT HL Hc Hv Hcov (n & Hn & Hun).
  assert (P : 0 < rsum (3 * N) (fun i => flat u i * mdotv (3 * N) (mass_matrix T vol c lumped) (flat u) i)).
  { apply (C102_positive_definite N T vol c lumped (flat u) HT HL Hc Hv Hcov). 
    assert (Q : exists q, (q < 3)%nat /\ vcomp (u n) q <> 0).
    { destruct (u n) as [a b d] eqn:Eu. destruct (Req_dec a 0) as [->|]; [|exists 0%nat; split; [lia|assumption]]. destruct (Req_dec b 0) as [->|]; [|exists 1%nat; split; [lia|assumption]].
      destruct (Req_dec d 0) as [->|]; [exfalso; apply Hun; reflexivity|exists 2%nat; split; [lia|assumption]]. }
    destruct Q as (q & Hq & Hnz). exists (3 * n + q)%nat. split; [lia|]. unfold flat. rewrite <- (Nat.div_unique (3 * n + q) 3 n q) by lia. rewrite <- (Nat.mod_unique (3 * n + q) 3 n q) by lia. exact Hnz. }
  assert (E : rsum (3 * N) (fun i => flat u i * mdotv (3 * N) (mass_matrix T vol c lumped) (flat u) i) = work N (prod_mat_vec T (compute_mass_element_array c vol lumped) u) u).
  { rewrite <- flat_work. apply rsum_ext. intros k _. rewrite Rmult_comm. f_equal. apply assembly_product. exact HT. }
  rewrite E in P. change (compute_damping_element_array c vol lumped) with (compute_mass_element_array c vol lumped).
  assert (E2 : work N (compute_damping_forces T (compute_mass_element_array c vol lumped) u) u = - work N (prod_mat_vec T (compute_mass_element_array c vol lumped) u) u); [|lra].
  unfold work, compute_damping_forces. rewrite <- (Rmult_1_l (rsum N (fun n => vdot (prod_mat_vec T (compute_mass_element_array c vol lumped) u n) (u n)))). rewrite Ropp_mult_distr_l, <- rsum_scale.
  apply rsum_ext. intros i _. generalize (prod_mat_vec T (compute_mass_element_array c vol lumped) u i) (u i). intros a b. vring.
Qed.
(** gravity is exactly mass matrix times gravitational acceleration (so a body in free fall accelerates uniformly), for the
    lumped and for the consistent mass matrix, and its total is the weight *)
Theorem C103_gravity N T vol rho lumped g : valid_mesh N T -> forall n, (n < N)%nat ->
  compute_gravity_forces T vol rho g n = prod_mat_vec T (compute_mass_element_array rho vol lumped) (fun _ => g) n.
Proof.
  intros HT. apply work_inj. intros h. rewrite (gravity_work N T vol rho g h HT), (mass_work N T vol rho lumped _ _ HT). f_equal. apply map_ext. intros [t v]. cbn [fst snd]. rewrite elem_form_const. field.
Qed.
Theorem C103_weight N T vol rho g : valid_mesh N T -> length T = length vol -> vtotal N (compute_gravity_forces T vol rho g) = vscale (rho * sum vol) g.
Proof.
  intros HT HL. rewrite <- (C102_total_mass N T vol rho true g HT HL). apply vdot_ext. intros c. rewrite !vtotal_dot. apply work_ext. intros n Hn. apply (C103_gravity N); assumption.
Qed.
Example C103_nonvacuous : vtotal 4 (compute_gravity_forces one_tet [1 / 6] 1000 (mkV 0 (-6) 0)) = mkV 0 (-1000) 0.
Proof. rewrite (C103_weight 4 one_tet [1 / 6] 1000 _ one_tet_valid eq_refl). unfold sum. cbn [fold_right]. vunf. f_equal; field. Qed.

(** ** C104: outward face vectors *)
Definition sel4 (g : vec3 * vec3 * vec3 * vec3) (a : nat) : vec3 := let '(g0, g1, g2, g3) := g in match a with O => g0 | 1%nat => g1 | 2%nat => g2 | _ => g3 end.
(** the area of a triangle *)
Definition tri_area (p q r : vec3) : R := vnorm (vcross (vsub q p) (vsub r p)) / 2.
(** the face opposite to corner a, its corners in any order *)
Definition opposite (a b c d : nat) : Prop := (a < 4 /\ b < 4 /\ c < 4 /\ d < 4)%nat /\ NoDup [a; b; c; d].
(** the a-th vector is perpendicular to the face opposite to corner a, its length is a third of that face's area, it has inner
    product vol (> 0 for a correctly oriented tetrahedron) with every edge leaving corner a, i.e. it points outward; and the
    four vectors add up to zero *)
Lemma four a : (a < 4)%nat -> a = 0%nat \/ a = 1%nat \/ a = 2%nat \/ a = 3%nat. Proof. lia. Qed.
Theorem C104_face_vectors x t a b c d : opposite a b c d -> let n := sel4 (face_vectors x t) a in
  let p q := x (node t q) in
  vdot n (vsub (p c) (p b)) = 0 /\ vdot n (vsub (p d) (p b)) = 0 /\ vdot n (vsub (p b) (p a)) = elem_volume x t /\
  vnorm n = tri_area (p b) (p c) (p d) / 3.
Proof.
  intros [(Ha & Hb & Hc & Hd) ND] n p. subst n p. cbv beta.
  inversion ND as [|? ? N1 ND1]; subst. inversion ND1 as [|? ? N2 ND2]; subst. inversion ND2 as [|? ? N3 _]; subst. cbn [In] in N1, N2, N3.
  assert (K : forall s v w, 0 <= s -> vdot v v = s * s * vdot w w -> vnorm v = s * vnorm w).
  { intros s v w Hs E. unfold vnorm. rewrite E, sqrt_mult by (try nra; apply vdot_self_nonneg). rewrite sqrt_square by exact Hs. reflexivity. }
  unfold tri_area. replace (vnorm (vcross (vsub (x (node t c)) (x (node t b))) (vsub (x (node t d)) (x (node t b)))) / 2 / 3) with (/ 6 * vnorm (vcross (vsub (x (node t c)) (x (node t b))) (vsub (x (node t d)) (x (node t b))))) by field.
  unfold elem_volume, face_vectors, corners.
  destruct (four a Ha) as [-> | [-> | [-> | ->]]], (four b Hb) as [-> | [-> | [-> | ->]]]; try (exfalso; lia);
  destruct (four c Hc) as [-> | [-> | [-> | ->]]]; try (exfalso; lia); destruct (four d Hd) as [-> | [-> | [-> | ->]]]; try (exfalso; lia);
  cbn [sel4]; clear - K; generalize (x (node t 0)) (x (node t 1)) (x (node t 2)) (x (node t 3)); intros [] [] [] [];
  (split; [vunf; field|split; [vunf; field|split; [vunf; field|apply K; [lra|vunf; field]]]]).
Qed.
Theorem C104_sum_zero x t : vadd (vadd (vadd (sel4 (face_vectors x t) 0) (sel4 (face_vectors x t) 1)) (sel4 (face_vectors x t) 2)) (sel4 (face_vectors x t) 3) = vzero.
Proof. pose proof (faces_sum x t) as H. destruct (face_vectors x t) as [[[g0 g1] g2] g3]. exact H. Qed.
(** the vectors are -vol times the gradients of the shape functions: the affine functions lam_a(p) = 1 - N_a . (p - x_a) / vol
    are the barycentric coordinates of p *)
Definition shape (x : field) (t : elem) (a : nat) (p : vec3) : R := 1 - vdot (sel4 (face_vectors x t) a) (vsub p (x (node t a))) / elem_volume x t.
Theorem C104_shape_functions x t p : elem_volume x t <> 0 ->
  shape x t 0 p + shape x t 1 p + shape x t 2 p + shape x t 3 p = 1 /\
  vadd (vadd (vadd (vscale (shape x t 0 p) (x (node t 0))) (vscale (shape x t 1 p) (x (node t 1)))) (vscale (shape x t 2 p) (x (node t 2)))) (vscale (shape x t 3 p) (x (node t 3))) = p.
Proof.
  intros H. unfold shape. set (v := elem_volume x t) in *. assert (E : v = elem_volume x t) by reflexivity. clearbody v. revert E. unfold elem_volume, face_vectors, corners.
  generalize (x (node t 0)) (x (node t 1)) (x (node t 2)) (x (node t 3)). intros a b c d E. cbn [sel4].
  assert (S : vdot (vscale (/ 6) (vcross (vsub c b) (vsub d b))) (vsub p a) + vdot (vscale (/ 6) (vcross (vsub a c) (vsub d a))) (vsub p b) +
              vdot (vscale (/ 6) (vcross (vsub b a) (vsub d a))) (vsub p c) + vdot (vscale (/ 6) (vcross (vsub c b) (vsub b a))) (vsub p d) = 3 * v)
    by (rewrite E; clear; destruct a, b, c, d, p; vunf; field).
  set (w0 := vdot (vscale (/ 6) (vcross (vsub c b) (vsub d b))) (vsub p a)) in *. set (w1 := vdot (vscale (/ 6) (vcross (vsub a c) (vsub d a))) (vsub p b)) in *.
  set (w2 := vdot (vscale (/ 6) (vcross (vsub b a) (vsub d a))) (vsub p c)) in *. set (w3 := vdot (vscale (/ 6) (vcross (vsub c b) (vsub b a))) (vsub p d)) in *.
  split; [apply (Rmult_eq_reg_r v); [|exact H]; field_simplify; [lra|exact H]|].
  assert (K : vadd (vadd (vadd (vscale (v - w0) a) (vscale (v - w1) b)) (vscale (v - w2) c)) (vscale (v - w3) d) = vscale v p).
  { unfold w0, w1, w2, w3. rewrite E. clear. destruct a, b, c, d, p; vunf. f_equal; field. }
  clearbody w0 w1 w2 w3. clear - H K. destruct a as [a1 a2 a3], b as [b1 b2 b3], c as [c1 c2 c3], d as [d1 d2 d3], p as [p1 p2 p3]. vunf. injection K. intros K3 K2 K1.
  f_equal; apply (Rmult_eq_reg_l v); try exact H; field_simplify; try exact H; lra.
Qed.
Definition unit_tet : field := fun n => match n with O => mkV 0 0 0 | 1%nat => mkV 1 0 0 | 2%nat => mkV 0 1 0 | _ => mkV 0 0 1 end.
Example C104_nonvacuous : opposite 0 1 2 3 /\ elem_volume unit_tet (0, 1, 2, 3)%nat = 1 / 6 /\ sel4 (face_vectors unit_tet (0, 1, 2, 3)%nat) 0 = mkV (/ 6) (/ 6) (/ 6).
Proof.
  split; [split; [lia|repeat constructor; cbn; lia]|]. unfold elem_volume, face_vectors, corners, sel4, unit_tet. cbn [node]. split; vunf; [field|f_equal; field].
Qed.

(** ** C105: the deformation gradient *)
(** precomputation at rest and evaluation in the current state fail exactly when a tetrahedron is degenerate or inverted *)
Theorem C105_raises x0 x T : ((exists inv, compute_inverse_D0 x0 T = Some inv) <-> Forall (fun t => 0 < elem_volume x0 t) T) /\
  (forall inv, compute_deformation_gradient x T inv = None <-> Exists (fun t => elem_volume x t <= 0) T).
Proof. split; [apply invD0_spec|]. intros inv. apply F_none. Qed.
(** F[e] maps every material edge of tetrahedron e to the spatial edge *)
Lemma F_edges x0 x t inv : m3inv (edges x0 t) = Some inv -> forall a b, (a < 4)%nat -> (b < 4)%nat ->
  mvec (mmul (edges x t) inv) (vsub (x0 (node t b)) (x0 (node t a))) = vsub (x (node t b)) (x (node t a)).
Proof.
  intros HI. apply m3inv_inv in HI. destruct HI as (_ & _ & HI).
  assert (B : forall b, (b < 4)%nat -> mvec (mmul (edges x t) inv) (vsub (x0 (node t b)) (x0 (node t 0))) = vsub (x (node t b)) (x (node t 0))).
  { intros b Hb. assert (E : forall y, vsub (y (node t b)) (y (node t 0)) = mvec (edges y t) (match b with O => vzero | 1%nat => mkV 1 0 0 | 2%nat => mkV 0 1 0 | _ => mkV 0 0 1 end)).
    { intros y. unfold edges. destruct (four b Hb) as [-> | [-> | [-> | ->]]]; generalize (y (node t 0)) (y (node t 1)) (y (node t 2)) (y (node t 3)); intros; mring. }
    rewrite (E x0). rewrite (E x). generalize (match b with O => vzero | 1%nat => mkV 1 0 0 | 2%nat => mkV 0 1 0 | _ => mkV 0 0 1 end). intros w.
    assert (M : forall A B v, mvec (mmul A B) v = mvec A (mvec B v)) by (clear; intros; mring). rewrite M. f_equal. rewrite <- M, HI. clear. mring. }
  intros a b Ha Hb. transitivity (vsub (mvec (mmul (edges x t) inv) (vsub (x0 (node t b)) (x0 (node t 0)))) (mvec (mmul (edges x t) inv) (vsub (x0 (node t a)) (x0 (node t 0))))).
  { generalize (mmul (edges x t) inv) (x0 (node t a)) (x0 (node t b)) (x0 (node t 0)). clear. intros. mring. }
  rewrite (B a Ha), (B b Hb). generalize (x (node t a)) (x (node t b)) (x (node t 0)). clear. intros. mring.
Qed.
Theorem C105_edges x0 x T inv F : compute_inverse_D0 x0 T = Some inv -> compute_deformation_gradient x T inv = Some F ->
  Forall2 (fun t Fe => forall a b, (a < 4)%nat -> (b < 4)%nat -> mvec Fe (vsub (x0 (node t b)) (x0 (node t a))) = vsub (x (node t b)) (x (node t a))) T F.
Proof.
  intros HI HF. pose proof (invD0_forall x0 T inv HI) as AI. assert (LI : length T = length inv) by (clear - AI; induction AI; cbn; lia).
  pose proof (F_forall x T inv F HF LI) as AF. clear - AI AF. revert F AF. induction AI as [|t i T inv [V0 I0] AI IH]; intros F AF; inversion AF as [|? Fe ? F' [V1 E1] AF']; subst; constructor; [|apply IH; assumption].
  cbn [fst snd]. apply F_edges. exact I0.
Qed.
(** affine motions are reproduced exactly: if every node moves by p -> B p + c with det B > 0, then F[e] = B for all e *)
Theorem C105_affine x0 T inv B c : compute_inverse_D0 x0 T = Some inv -> 0 < mdet B ->
  compute_deformation_gradient (fun n => vadd (mvec B (x0 n)) c) T inv = Some (map (fun _ => B) T).
Proof.
  intros HI HB. pose proof (invD0_forall x0 T inv HI) as AI. clear HI. unfold compute_deformation_gradient, compute_D.
  induction AI as [|t i T inv [V0 I0] AI IH]; [reflexivity|]. cbn [map_all].
  rewrite (proj2 (elem_D_some _ _ (edges (fun n => vadd (mvec B (x0 n)) c) t))) by (split; [rewrite volume_affine; nra|reflexivity]).
  destruct (map_all (elem_D (fun n => vadd (mvec B (x0 n)) c)) T) as [D|]; [|discriminate]. cbn [combine map fst snd]. injection IH as ->. do 2 f_equal.
  rewrite edges_affine, mmul_assoc3. apply m3inv_inv in I0. destruct I0 as (_ & -> & _). apply mmul_id_r.
Qed.
(** in particular F[e] is the identity at rest and R after a rigid motion *)
Theorem C105_rigid x0 T inv Q c : compute_inverse_D0 x0 T = Some inv -> is_rotation Q -> 
  compute_deformation_gradient (fun n => vadd (mvec Q (x0 n)) c) T inv = Some (map (fun _ => Q) T).
Proof. intros HI [_ D]. apply C105_affine; [exact HI|lra]. Qed.
(** rotating the deformed body rotates the deformation gradients; translating it leaves them alone *)
Theorem C105_objective x T inv F Q c : length T = length inv -> is_rotation Q -> compute_deformation_gradient x T inv = Some F ->
  compute_deformation_gradient (fun n => vadd (mvec Q (x n)) c) T inv = Some (map (mmul Q) F).
Proof.
  intros HL [_ DQ] HF. pose proof (F_forall x T inv F HF HL) as AF. clear HF. unfold compute_deformation_gradient, compute_D. revert inv F HL AF.
  induction T as [|t T IH]; intros [|i inv] F HL AF; cbn in HL; try discriminate; cbn [combine] in AF; inversion AF as [|? Fe ? F' [V1 E1] AF']; subst; [reflexivity|]. cbn [fst snd] in *. cbn [map_all].
  rewrite (proj2 (elem_D_some _ _ (edges (fun n => vadd (mvec Q (x n)) c) t))) by (split; [rewrite volume_affine; nra|reflexivity]).
  specialize (IH inv F' ltac:(lia) AF'). destruct (map_all (elem_D (fun n => vadd (mvec Q (x n)) c)) T) as [D|]; [|discriminate]. cbn [combine map fst snd]. injection IH as ->. do 2 f_equal.
  rewrite edges_affine. apply mmul_assoc3.
Qed.
Example C105_nonvacuous : exists inv, compute_inverse_D0 unit_tet one_tet = Some inv /\ compute_deformation_gradient (fun n => vscale 2 (unit_tet n)) one_tet inv <> None.
Proof.
  destruct (proj2 (invD0_spec unit_tet one_tet)) as [inv HI]. { constructor; [|constructor]. unfold elem_volume, corners, unit_tet. cbn [node]. vunf. lra. }
  exists inv. split; [exact HI|]. intros Z. apply F_none in Z. inversion Z as [? ? V|? ? V]; subst; [|inversion V]. revert V. unfold elem_volume, corners, unit_tet. cbn [node]. vunf. lra.
Qed.
