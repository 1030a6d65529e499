(** Property theorems C37, C38, C70-C72: surface meshes (rainbow/geometry/surface_mesh.py) *)
From Verif Require Import Base QuatModel VecModel QuatProofs RotProofs VecProofs BvhModel BvhProofs BvhSpec KdopProofs GridModel GridProofs VolModel ListProofs SurfModel SurfSpec SurfProofs.
From Coq Require Import Permutation Sorted.
Open Scope R_scope.

(** ** C37 closed surfaces *)
(** Specification: closed oriented manifold, every vertex used, and the given Euler characteristic
    (undirected edges = half the directed ones: 2V - 2E + 2F = 2 chi) *)
Definition closed_surface (V : list vec3) (T : list tri) (chi : Z) : Prop :=
  closed_mesh T /\ covers_indices (Z.of_nat (length V)) T /\
  (2 * Z.of_nat (length V) - Z.of_nat (length (directed_edges T)) + 2 * Z.of_nat (length T) = 2 * chi)%Z.
Lemma edges_len T : length (directed_edges T) = (3 * length T)%nat.
Proof. unfold directed_edges. induction T as [|[[a b] c] T IH]; auto. cbn [flat_map]. rewrite app_length, IH. cbn. lia. Qed.
Lemma removelast_len {A} (l : list A) : length (removelast l) = (length l - 1)%nat.
Proof. induction l as [|a [|b l] IH]; cbn [removelast length] in *; auto. lia. Qed.
Lemma inner_len {A} (l : list A) : length (inner l) = (length l - 2)%nat.
Proof. unfold inner. rewrite removelast_len. destruct l; cbn; lia. Qed.
Lemma sweep_V_len profile d J : (0 <= J)%Z -> Z.of_nat (length (flat_map (sweep_slice profile d) (zupto J))) = (J * Z.of_nat (length profile - 2))%Z.
Proof.
  intros HJ. assert (F : forall l, length (flat_map (sweep_slice profile d) l) = (length l * (length profile - 2))%nat).
  { induction l as [|j l IH]; cbn; auto. rewrite app_length, IH. unfold sweep_slice. rewrite map_length, inner_len. auto. }
  rewrite F. unfold zupto. rewrite map_length, seq_length. lia.
Qed.
Theorem C37_profile_sweep : forall profile slices,
  (profile_sweep profile slices = None <-> ((length profile < 3)%nat \/ (slices < 3)%Z)) /\
  forall V T, profile_sweep profile slices = Some (V, T) ->
    closed_surface V T 2 /\
    Z.of_nat (length V) = ((Z.of_nat (length profile) - 2) * slices + 2)%Z /\
    Z.of_nat (length T) = (2 * slices * (Z.of_nat (length profile) - 2))%Z.
Proof.
  intros profile J. unfold profile_sweep. destruct (Z.leb_spec (Z.of_nat (length profile)) 2) as [Hn|Hn], (Z.leb_spec J 2) as [Hj|Hj];
    try (split; [split; [intros _; lia|auto]|intros; discriminate]).
  split; [split; [discriminate|lia]|]. intros V T E.
  set (H := (Z.of_nat (length profile) - 2)%Z) in *.
  assert (PI1 : forall (a b : list vec3 * list tri), Some a = Some b -> a = b) by congruence. apply PI1 in E. clear PI1. injection E as <- <-.
  replace (H * J + 2 - 1)%Z with (H * J + 1)%Z by lia. replace (H * J + 2 - 2)%Z with (H * J)%Z by lia.
  replace (Z.of_nat (length profile)) with (H + 2)%Z by (unfold H; lia).
  assert (LV : Z.of_nat (length (flat_map (sweep_slice profile (2 * PI / IZR J)) (zupto J) ++ [last profile vzero; hd vzero profile])) = (H * J + 2)%Z).
  { rewrite app_length, Nat2Z.inj_add, sweep_V_len by lia. cbn [length]. unfold H. nia. }
  pose proof (sweep_count H J (H * J + 1) (H + 2) (H * J) ltac:(unfold H; lia) ltac:(lia)) as LT.
  split; [|split; auto].
  split; [apply sweep_closed; unfold H; lia|]. split; [rewrite LV; apply sweep_covers; unfold H; lia|]. rewrite LV, edges_len. lia.
Qed.
Print Assumptions C37_profile_sweep.
(** the generators built on profile_sweep *)
Theorem C37_swept_shapes : forall slices segments radius height bottom_radius top_radius a b c V T,
  (create_cylinder radius height slices segments = Some (V, T) \/ create_cone radius height slices = Some (V, T) \/
   create_conical bottom_radius top_radius height slices = Some (V, T) \/ create_sphere radius slices segments = Some (V, T) \/
   create_ellipsoid a b c slices segments = Some (V, T) \/ create_capsule radius height slices segments = Some (V, T)) ->
  closed_surface V T 2.
Proof.
  intros. assert (G : forall p s V T, profile_sweep p s = Some (V, T) -> closed_surface V T 2) by (intros p s V0 T0 E; apply (proj2 (C37_profile_sweep p s) _ _ E)).
  destruct H as [H|[H|[H|[H|[H|H]]]]].
  - unfold create_cylinder in H. destruct (segments <=? 0)%Z; [discriminate|]. eapply G; eauto.
  - eapply G; eauto.
  - eapply G; eauto.
  - unfold create_sphere in H. destruct (segments =? 1)%Z; [discriminate|]. eapply G; eauto.
  - unfold create_ellipsoid, create_sphere in H. destruct (segments =? 1)%Z; [discriminate|]. destruct (profile_sweep _ _) as [[V0 T0]|] eqn:E; [|discriminate].
    apply G in E. assert (PI1 : forall (a b : list vec3 * list tri), Some a = Some b -> a = b) by congruence. apply PI1 in H. injection H as <- <-. unfold closed_surface in *. rewrite map_length. auto.
  - unfold create_capsule in H. destruct (segments =? 1)%Z; [discriminate|]. eapply G; eauto.
Qed.
Print Assumptions C37_swept_shapes.
(** they succeed for every resolution of at least 3 *)
Theorem C37_swept_total : forall slices segments radius height bottom_radius top_radius a b c, (3 <= slices)%Z -> (3 <= segments)%Z ->
  create_cylinder radius height slices segments <> None /\ create_cone radius height slices <> None /\
  create_conical bottom_radius top_radius height slices <> None /\ create_sphere radius slices segments <> None /\
  create_ellipsoid a b c slices segments <> None /\ create_capsule radius height slices segments <> None.
Proof.
  intros slices segments radius height rb rt a b c Hs Hg.
  assert (G : forall p, (3 <= length p)%nat -> profile_sweep p slices <> None) by (intros p Hp E; apply (proj1 (C37_profile_sweep p slices)) in E; lia).
  assert (L : forall {A} (f : Z -> A), (3 <= length (map f (zupto segments)))%nat) by (intros; unfold zupto; rewrite !map_length, seq_length; lia).
  unfold create_cylinder, create_cone, create_conical, create_ellipsoid, create_sphere, create_capsule.
  destruct (Z.leb_spec segments 0); [lia|]. destruct (Z.eqb_spec segments 1); [lia|].
  repeat split; try (apply G; auto; cbn; lia).
  - apply G. unfold cylinder_profile. rewrite !app_length. specialize (L _ (fun i => mkV radius (height / IZR segments * (IZR i + 1) - height / 2) 0)). lia.
  - destruct (profile_sweep (map (sphere_point 1 segments) (zupto segments)) slices) as [[V T]|] eqn:E; [discriminate|]. exfalso. eapply G; [|exact E]. auto.
Qed.
Print Assumptions C37_swept_total.
Theorem C37_torus : forall R0 r segments slices, (3 <= segments)%Z -> (3 <= slices)%Z ->
  closed_surface (fst (create_torus R0 r segments slices)) (snd (create_torus R0 r segments slices)) 0 /\
  Z.of_nat (length (fst (create_torus R0 r segments slices))) = (segments * slices)%Z.
Proof.
  intros R0 r I K HI HK. cbn [create_torus fst snd].
  assert (F : forall {A B} (f : A -> list B) c l, (forall x, In x l -> length (f x) = c) -> length (flat_map f l) = (length l * c)%nat).
  { clear. intros A B f c. induction l as [|a l IH]; intros Hx; cbn; auto. rewrite app_length, IH by (intros; apply Hx; cbn; auto). rewrite Hx by (cbn; auto). auto. }
  assert (L : forall n, (0 <= n)%Z -> Z.of_nat (length (zupto n)) = n) by (intros; unfold zupto; rewrite map_length, seq_length; lia).
  assert (LV : Z.of_nat (length (flat_map (fun k => map (fun i => torus_point R0 r I K i k) (zupto I)) (zupto K))) = (I * K)%Z).
  { rewrite (F _ _ _ (length (zupto I))) by (intros; apply map_length). rewrite Nat2Z.inj_mul, !L by lia. lia. }
  assert (LT : Z.of_nat (length (torus_triangles I K)) = (2 * I * K)%Z).
  { unfold torus_triangles. rewrite (F _ _ _ (length (zupto I) * 2)%nat) by (intros; apply F; intros; reflexivity). rewrite !Nat2Z.inj_mul, !L by lia. lia. }
  split; auto. split; [apply torus_closed; auto|]. rewrite LV. split; [apply torus_covers; auto|]. rewrite edges_len. lia.
Qed.
Print Assumptions C37_torus.
(** finite meshes: decide closedness by evaluation *)
Definition edge_eqb (a b : Z * Z) : bool := ((fst a =? fst b) && (snd a =? snd b))%Z.
Lemma edge_eqb_eq a b : edge_eqb a b = true <-> a = b.
Proof. unfold edge_eqb. destruct a, b; cbn. rewrite andb_true_iff, !Z.eqb_eq. split; [intros []; congruence|intros E; injection E; auto]. Qed.
Fixpoint nodupb (l : list (Z * Z)) : bool := match l with [] => true | a :: l => negb (existsb (edge_eqb a) l) && nodupb l end.
Lemma nodupb_ok l : nodupb l = true -> NoDup l.
Proof.
  induction l as [|a l IH]; cbn; [constructor|]. rewrite andb_true_iff, negb_true_iff. intros [H1 H2]. constructor; auto.
  intros Hi. assert (existsb (edge_eqb a) l = true) by (apply existsb_exists; exists a; split; auto; apply edge_eqb_eq; auto). congruence.
Qed.
Definition closedb (T : list tri) : bool :=
  nodupb (directed_edges T) && forallb (fun e => existsb (edge_eqb (snd e, fst e)) (directed_edges T) && negb (fst e =? snd e)%Z) (directed_edges T).
Lemma closedb_ok T : closedb T = true -> closed_mesh T.
Proof.
  unfold closedb. rewrite andb_true_iff, forallb_forall. intros [H1 H2]. split; [apply nodupb_ok; auto|]. split; intros a b Hab; specialize (H2 _ Hab); rewrite andb_true_iff in H2; destruct H2 as [H2 H3].
  - apply existsb_exists in H2. destruct H2 as (e & He & E). apply edge_eqb_eq in E. subst e. auto.
  - cbn in H3. apply negb_true_iff, Z.eqb_neq in H3. auto.
Qed.
Definition covers8 (T : list tri) : bool :=
  forallb (fun e => (0 <=? fst e) && (fst e <? 8) && (0 <=? snd e) && (snd e <? 8))%Z (directed_edges T) &&
  forallb (fun v => existsb (fun e => (fst e =? v)%Z) (directed_edges T)) [0; 1; 2; 3; 4; 5; 6; 7]%Z.
Lemma covers8_ok T : covers8 T = true -> covers_indices 8 T.
Proof.
  unfold covers8. rewrite andb_true_iff, !forallb_forall. intros [H1 H2] v. split.
  - intros Hv. assert (Hi : In v [0; 1; 2; 3; 4; 5; 6; 7]%Z) by (cbn; lia). apply H2 in Hi. apply existsb_exists in Hi. destruct Hi as ([a b] & He & E). cbn in E. apply Z.eqb_eq in E. exists a, b. auto.
  - intros (a & b & Hab & Hv). apply H1 in Hab. cbn in Hab. rewrite !andb_true_iff, !Z.leb_le, !Z.ltb_lt in Hab. lia.
Qed.
Theorem C37_box_cuboid :
  (forall width height depth, closed_surface (fst (create_box width height depth)) (snd (create_box width height depth)) 2) /\
  (forall p0 p1 p2 p3 p4 p5 p6 p7, closed_surface (fst (create_cuboid p0 p1 p2 p3 p4 p5 p6 p7)) (snd (create_cuboid p0 p1 p2 p3 p4 p5 p6 p7)) 2).
Proof.
  split; intros; cbn [fst snd create_box create_cuboid]; (split; [apply closedb_ok; reflexivity|]; split; [apply covers8_ok; reflexivity|reflexivity]).
Qed.
Print Assumptions C37_box_cuboid.
Example C37_nonvacuous : exists V T, create_cone 1 2 5 = Some (V, T) /\ length V = 7%nat /\ length T = 10%nat /\ In (6, 1, 0)%Z T /\ In (5, 4, 0)%Z T.
Proof. eexists. eexists. split; [reflexivity|]. split; [reflexivity|]. split; [reflexivity|]. split; [left; reflexivity|do 9 right; left; reflexivity]. Qed.

(** ** C70 generated vertices lie on the surface *)
Lemma Ru_j_unit a : is_unit (q_Ru a v3_j).
Proof. apply q_Ru_spec. intros E. injection E; lra. Qed.
Lemma Ru_k_unit a : is_unit (q_Ru a v3_k).
Proof. apply q_Ru_spec. intros E. injection E; lra. Qed.
Lemma rot_dot q p : is_unit q -> vdot (q_rotate q p) (q_rotate q p) = vdot p p.
Proof. intros Hq. rewrite q_rotate_dot. unfold is_unit in Hq. rewrite Hq. ring. Qed.
Lemma rot_j_y a p : vy (q_rotate (q_Ru a v3_j) p) = vy p.
Proof.
  rewrite q_rotate_formula. pose proof (Ru_j_unit a) as U. unfold is_unit in U. unfold q_Ru in *. cbn [qs qx qy qz vy] in *. unfold qdot in U. cbn [qs qx qy qz] in U.
  assert (Z0 : vx (vdiv v3_j (vnorm v3_j)) = 0) by (cbn; unfold Rdiv; ring). assert (Z1 : vz (vdiv v3_j (vnorm v3_j)) = 0) by (cbn; unfold Rdiv; ring).
  rewrite Z0, Z1 in *. set (s := sin (a / 2) * vy (vdiv v3_j (vnorm v3_j))) in *. set (c := cos (a / 2)) in *.
  replace (_ + _ + _) with ((c * c + s * s) * vy p) by ring. replace (c * c + s * s) with 1 by lra. ring.
Qed.
Lemma rot_j_r a p : let p' := q_rotate (q_Ru a v3_j) p in vx p' * vx p' + vz p' * vz p' = vx p * vx p + vz p * vz p.
Proof. cbv zeta. pose proof (rot_dot (q_Ru a v3_j) p (Ru_j_unit a)) as E. pose proof (rot_j_y a p) as Ey. unfold vdot in E. rewrite Ey in E. lra. Qed.
Lemma in_inner {A} (x : A) l : In x (inner l) -> In x l.
Proof.
  unfold inner. destruct l as [|a l]; [contradiction|]. cbn [tl]. intros H. right. revert H. generalize l. clear. induction l as [|a [|b l] IH]; cbn [removelast]; try contradiction.
  intros [->|H]; [left; auto|right; apply IH; auto].
Qed.
Lemma last_in {A} (l : list A) d : l <> [] -> In (last l d) l.
Proof. induction l as [|a [|b l] IH]; intros H; [contradiction|left; auto|right; apply IH; discriminate]. Qed.
(** every vertex of a sweep is a profile point turned about the y axis *)
Theorem C70_sweep_vertices : forall profile slices V T, profile_sweep profile slices = Some (V, T) ->
  forall p, In p V -> exists q a, In q profile /\ p = q_rotate (q_Ru a v3_j) q /\ vy p = vy q /\ vx p * vx p + vz p * vz p = vx q * vx q + vz q * vz q.
Proof.
  intros profile J V T E p Hp. unfold profile_sweep in E. destruct (Z.leb_spec (Z.of_nat (length profile)) 2), (J <=? 2)%Z; try discriminate.
  assert (PI1 : forall (a b : list vec3 * list tri), Some a = Some b -> a = b) by congruence. apply PI1 in E. injection E as <- _.
  assert (X : forall q a, In q profile -> p = q_rotate (q_Ru a v3_j) q -> exists q a, In q profile /\ p = q_rotate (q_Ru a v3_j) q /\ vy p = vy q /\ vx p * vx p + vz p * vz p = vx q * vx q + vz q * vz q).
  { intros q a Hq ->. exists q, a. split; auto. split; auto. split; [apply rot_j_y|apply rot_j_r]. }
  assert (I0 : forall q, q_rotate (q_Ru 0 v3_j) q = q).
  { intros q. rewrite q_rotate_formula. unfold q_Ru. cbn [qs qx qy qz]. replace (0 / 2) with 0 by lra. rewrite cos_0, sin_0. destruct q as [x y z]. cbn [vx vy vz]. f_equal; ring. }
  apply in_app_iff in Hp. destruct Hp as [Hp|[Hp|[Hp|[]]]].
  - apply in_flat_map in Hp. destruct Hp as (j & _ & Hp). unfold sweep_slice in Hp. apply in_map_iff in Hp. destruct Hp as (q & <- & Hq). eapply X; [apply in_inner; eauto|reflexivity].
  - eapply (X p 0); [|rewrite I0; auto]. rewrite <- Hp. apply last_in. intros ->. cbn in H. lia.
  - eapply (X p 0); [|rewrite I0; auto]. rewrite <- Hp. destruct profile; cbn in *; [lia|auto].
Qed.
Print Assumptions C70_sweep_vertices.
(** vertex j*H+i is inner profile point i turned by 2 pi j / slices; the last two are the top and bottom ends *)
Theorem C70_sweep_layout : forall profile slices V T i j q, profile_sweep profile slices = Some (V, T) ->
  (0 <= j < slices)%Z -> (S i < length profile - 1)%nat -> nth_error profile (S i) = Some q ->
  nth_error V (Z.to_nat j * (length profile - 2) + i) = Some (q_rotate (q_Ru (IZR j * (2 * PI / IZR slices)) v3_j) q).
Proof.
  intros profile J V T i j q E Hj Hi Hq. unfold profile_sweep in E. destruct (Z.leb_spec (Z.of_nat (length profile)) 2), (Z.leb_spec J 2); try discriminate.
  assert (PI1 : forall (a b : list vec3 * list tri), Some a = Some b -> a = b) by congruence. apply PI1 in E. injection E as <- _.
  assert (Hin : nth_error (inner profile) i = Some q).
  { unfold inner. destruct profile as [|a l]; [discriminate|]. cbn [nth_error tl length] in *.
    assert (Hl : (i < length l - 1)%nat) by lia. clear - Hq Hl. revert i Hq Hl. induction l as [|b [|c l] IH]; intros [|i] Hq Hl; cbn in *; auto; try lia. apply IH; auto; cbn; lia. }
  assert (G : forall n l, (forall x, In x l -> True) -> (n < length l)%nat -> nth_error (flat_map (sweep_slice profile (2 * PI / IZR J)) l) (n * (length profile - 2) + i) =
     option_map (fun j => q_rotate (q_Ru (IZR j * (2 * PI / IZR J)) v3_j) q) (nth_error l n)).
  { assert (Ls : forall j, length (sweep_slice profile (2 * PI / IZR J) j) = (length profile - 2)%nat) by (intros; unfold sweep_slice; rewrite map_length; apply inner_len).
    induction n as [|n IH]; intros l _ Hl; (destruct l as [|x l]; [cbn in Hl; lia|]); cbn [flat_map].
    - rewrite nth_error_app1 by (rewrite Ls; lia). cbn [Nat.mul Nat.add nth_error option_map]. unfold sweep_slice. rewrite (map_nth_error _ i _ Hin). auto.
    - rewrite nth_error_app2 by (rewrite Ls; nia). rewrite Ls. replace (S n * (length profile - 2) + i - (length profile - 2))%nat with (n * (length profile - 2) + i)%nat by nia. rewrite IH; auto. cbn in Hl. lia. }
  assert (Lz : length (zupto J) = Z.to_nat J) by (unfold zupto; rewrite map_length, seq_length; auto).
  rewrite nth_error_app1.
  - rewrite G; auto; [|lia]. unfold zupto. rewrite nth_error_map. rewrite (nth_error_nth' _ 0%nat) by (rewrite seq_length; lia). rewrite seq_nth by lia. cbn. rewrite Z2Nat.id by lia. auto.
  - apply Nat2Z.inj_lt. rewrite sweep_V_len by lia. nia.
Qed.
Print Assumptions C70_sweep_layout.
Lemma sphere_point_r radius n i : vdot (sphere_point radius n i) (sphere_point radius n i) = radius * radius.
Proof. unfold sphere_point. rewrite rot_dot by apply Ru_k_unit. unfold vdot; cbn. ring. Qed.
Lemma vdot_xyz p : vdot p p = (vx p * vx p + vz p * vz p) + vy p * vy p.
Proof. unfold vdot. ring. Qed.
Theorem C70_sphere : forall radius slices segments V T, create_sphere radius slices segments = Some (V, T) -> forall p, In p V -> vdot p p = radius * radius.
Proof.
  intros radius slices segments V T E p Hp. unfold create_sphere in E. destruct (segments =? 1)%Z; [discriminate|].
  destruct (C70_sweep_vertices _ _ _ _ E p Hp) as (q & a & Hq & _ & Ey & Er). apply in_map_iff in Hq. destruct Hq as (i & <- & _).
  rewrite vdot_xyz, Er, Ey, <- vdot_xyz. apply sphere_point_r.
Qed.
Print Assumptions C70_sphere.
Theorem C70_ellipsoid : forall a b c slices segments V T, a <> 0 -> b <> 0 -> c <> 0 -> create_ellipsoid a b c slices segments = Some (V, T) ->
  forall p, In p V -> (vx p / a) * (vx p / a) + (vy p / b) * (vy p / b) + (vz p / c) * (vz p / c) = 1.
Proof.
  intros a b c slices segments V T Ha Hb Hc E p Hp. unfold create_ellipsoid in E. destruct (create_sphere 1 slices segments) as [[V0 T0]|] eqn:E0; [|discriminate].
  assert (PI1 : forall (a b : list vec3 * list tri), Some a = Some b -> a = b) by congruence. apply PI1 in E. injection E as <- _.
  apply in_map_iff in Hp. destruct Hp as (q & <- & Hq). pose proof (C70_sphere _ _ _ _ _ E0 q Hq) as S1. unfold vdot in S1. cbn [vmul3 vx vy vz].
  replace (vx q * a / a) with (vx q) by (field; auto). replace (vy q * b / b) with (vy q) by (field; auto). replace (vz q * c / c) with (vz q) by (field; auto). lra.
Qed.
Print Assumptions C70_ellipsoid.
Theorem C70_cylinder : forall radius height slices segments V T, 0 <= height -> create_cylinder radius height slices segments = Some (V, T) ->
  forall p, In p V -> - height / 2 <= vy p <= height / 2 /\
    (vx p * vx p + vz p * vz p = radius * radius \/ (vx p * vx p + vz p * vz p = 0 /\ (vy p = - height / 2 \/ vy p = height / 2))).
Proof.
  intros radius height slices segments V T Hh E p Hp. unfold create_cylinder in E. destruct (Z.leb_spec segments 0) as [|Hs]; [discriminate|].
  destruct (C70_sweep_vertices _ _ _ _ E p Hp) as (q & a & Hq & _ & Ey & Er). rewrite Ey, Er.
  unfold cylinder_profile in Hq. apply in_app_iff in Hq. destruct Hq as [[<-|[<-|[]]]|Hq]; cbn [vx vy vz].
  - split; [lra|]. right. split; [ring|auto].
  - split; [lra|]. left. ring.
  - apply in_app_iff in Hq. destruct Hq as [Hq|[<-|[]]]; cbn [vx vy vz].
    + apply in_map_iff in Hq. destruct Hq as (i & <- & Hi). apply in_zupto in Hi. cbn [vx vy vz]. split; [|left; ring].
      assert (S0 : 0 < IZR segments) by (apply IZR_lt; lia). assert (I0 : 0 <= IZR i) by (apply (IZR_le 0); lia). assert (I1 : IZR i + 1 <= IZR segments) by (rewrite <- plus_IZR; apply IZR_le; lia).
      assert (P0 : 0 <= height / IZR segments) by (apply Rmult_le_pos; [auto|apply Rlt_le, Rinv_0_lt_compat; auto]).
      assert (PE : height / IZR segments * IZR segments = height) by (field; lra).
      split; [assert (0 <= height / IZR segments * (IZR i + 1)) by (apply Rmult_le_pos; lra); lra|].
      assert (height / IZR segments * (IZR i + 1) <= height / IZR segments * IZR segments) by (apply Rmult_le_compat_l; auto). lra.
    + split; [lra|]. right. split; [ring|auto].
Qed.
Print Assumptions C70_cylinder.
(** every vertex of the capsule is on one of the two end spheres *)
Theorem C70_capsule : forall radius height slices segments V T, create_capsule radius height slices segments = Some (V, T) ->
  forall p, In p V -> exists s, (s = height / 2 \/ s = - height / 2) /\ vx p * vx p + (vy p - s) * (vy p - s) + vz p * vz p = radius * radius.
Proof.
  intros radius height slices segments V T E p Hp. unfold create_capsule in E. destruct (segments =? 1)%Z; [discriminate|].
  destruct (C70_sweep_vertices _ _ _ _ E p Hp) as (q & a & Hq & _ & Ey & Er). apply in_map_iff in Hq. destruct Hq as (i & <- & _).
  pose proof (sphere_point_r radius segments i) as S1. unfold vdot in S1. unfold capsule_point in Ey, Er. set (s := sphere_point radius segments i) in *. cbv zeta in Ey, Er.
  exists (if (2 * i <? segments)%Z then - height / 2 else height / 2). split; [destruct (2 * i <? segments)%Z; auto|].
  set (dh := if (2 * i <? segments)%Z then - height / 2 else height / 2) in *. cbn [vadd vx vy vz] in Ey, Er. rewrite Ey. replace (vy s + dh - dh) with (vy s) by ring.
  rewrite !Rplus_0_r in Er. lra.
Qed.
Print Assumptions C70_capsule.
Theorem C70_torus : forall R0 r segments slices p, In p (fst (create_torus R0 r segments slices)) ->
  exists l, l * l = vx p * vx p + vy p * vy p /\ (l - R0) * (l - R0) + vz p * vz p = r * r.
Proof.
  intros R0 r I K p Hp. cbn [create_torus fst] in Hp. apply in_flat_map in Hp. destruct Hp as (k & _ & Hp). apply in_map_iff in Hp. destruct Hp as (i & <- & _).
  unfold torus_point. cbn [vx vy vz]. set (th := IZR i * (2 * PI / IZR I)). set (ph := IZR k * (2 * PI / IZR K)). exists (r * cos th + R0).
  pose proof (sin2_cos2 th) as E1. pose proof (sin2_cos2 ph) as E2. unfold Rsqr in *. split.
  - replace ((r * cos th + R0) * cos ph * ((r * cos th + R0) * cos ph) + (r * cos th + R0) * sin ph * ((r * cos th + R0) * sin ph)) with ((r * cos th + R0) * (r * cos th + R0) * (sin ph * sin ph + cos ph * cos ph)) by ring. rewrite E2. ring.
  - replace ((r * cos th + R0 - R0) * (r * cos th + R0 - R0) + r * sin th * (r * sin th)) with (r * r * (sin th * sin th + cos th * cos th)) by ring. rewrite E1. ring.
Qed.
Print Assumptions C70_torus.
(** the box is the axis-aligned box with the given side lengths centred at the origin, with outward faces: its
    vertices are exactly the eight corners and its signed volume is width*height*depth *)
Definition tri_volume6 (V : list vec3) (t : tri) : R :=
  let '(a, b, c) := t in let p i := nth (Z.to_nat i) V vzero in vdot (p a) (vcross (p b) (p c)).
Definition signed_volume (V : list vec3) (T : list tri) : R := fold_right Rplus 0 (map (tri_volume6 V) T) / 6.
Theorem C70_box : forall w h d,
  (forall p, In p (fst (create_box w h d)) <-> (vx p = w / 2 \/ vx p = - w / 2) /\ (vy p = h / 2 \/ vy p = - h / 2) /\ (vz p = d / 2 \/ vz p = - d / 2)) /\
  signed_volume (fst (create_box w h d)) (snd (create_box w h d)) = w * h * d.
Proof.
  intros w h d. split.
  - intros [x y z]. cbn [create_box fst map In vx vy vz vscale]. split.
    + intros H. decompose [or] H; try contradiction; match goal with Q : _ = mkV _ _ _ |- _ => unfold vscale in Q; cbn [vx vy vz] in Q; injection Q as <- <- <- end; cbn [vx vy vz]; (split; [lra|split; lra]).
    + intros ([->| ->] & [->| ->] & [->| ->]); [do 7 right; left|do 3 right; left|do 5 right; left|do 1 right; left|do 6 right; left|do 2 right; left|do 4 right; left|left]; unfold vscale; cbn [vx vy vz]; apply (f_equal3 mkV); lra.
  - cbv -[Rplus Rmult Ropp Rminus Rdiv Rinv IZR]. field.
Qed.
Print Assumptions C70_box.
Example C70_nonvacuous : exists V T, create_sphere 2 3 3 = Some (V, T) /\ length V = 5%nat.
Proof. eexists. eexists. split; reflexivity. Qed.


(** ** C38 axis_sort *)
Lemma argsort_perm key n : Permutation (seq 0 n) (argsort key n).
Proof. apply isort_perm. Qed.
Lemma argsort_sorted key n : StronglySorted (fun a b => key a <= key b) (argsort key n).
Proof.
  assert (H : StronglySorted (fun a b => Rleb (key a) (key b) = true) (argsort key n)).
  { apply (isort_sorted (fun a b => Rleb (key a) (key b)) (fun _ => True)).
    - intros x y _ _. destruct (Rleb_spec (key x) (key y)), (Rleb_spec (key y) (key x)); auto; try discriminate. lra.
    - intros x y z _ _ _. rewrite !Rleb_true. lra.
    - apply Forall_forall; auto. }
  induction H; constructor; auto. eapply Forall_impl; [|eassumption]. intros b Hb. apply Rleb_true; auto.
Qed.
Lemma sorted_map {A B} (R : B -> B -> Prop) (f : A -> B) l : StronglySorted (fun a b => R (f a) (f b)) l -> StronglySorted R (map f l).
Proof. induction 1; cbn; constructor; auto. rewrite Forall_map. auto. Qed.
Lemma map_nth_seq' {A} (d : A) l : map (fun k => nth k l d) (seq 0 (length l)) = l.
Proof.
  induction l as [|a l IH]; cbn; auto. f_equal. rewrite <- seq_shift, map_map. auto.
Qed.
Lemma argsort_inverse N n : Permutation (seq 0 n) N -> forall k, (k < n)%nat ->
  let O := argsort (fun k => INR (nth k N 0%nat)) n in (nth k O 0%nat < n)%nat /\ nth (nth k O 0%nat) N 0%nat = k.
Proof.
  intros HP k Hk O. assert (LN : length N = n) by (rewrite <- (Permutation_length HP); apply seq_length).
  assert (PO : Permutation (seq 0 n) O) by apply argsort_perm. assert (LO : length O = n) by (rewrite <- (Permutation_length PO); apply seq_length).
  split. { assert (In (nth k O 0%nat) (seq 0 n)) by (eapply Permutation_in; [apply Permutation_sym; eauto|apply nth_In; lia]). apply in_seq in H. lia. }
  assert (E : map (fun k => nth k N 0%nat) O = seq 0 n).
  { apply (sorted_perm_eq (fun a b => (a <= b)%nat)).
    - intros; lia.
    - apply (sorted_map le (fun k => nth k N 0%nat)). pose proof (argsort_sorted (fun k => INR (nth k N 0%nat)) n) as S. fold O in S.
      clear - S. induction S; constructor; [auto|]. eapply Forall_impl; [|eassumption]. cbv beta. intros b Hb. apply INR_le; auto.
    - clear. generalize 0%nat. induction n; intros m; cbn; constructor; auto. apply Forall_forall. intros x Hx. apply in_seq in Hx. lia.
    - rewrite <- PO. rewrite <- LN at 1. rewrite map_nth_seq'. apply Permutation_sym; auto. }
  assert (E2 : nth k (map (fun k => nth k N 0%nat) O) (nth 0%nat N 0%nat) = nth (nth k O 0%nat) N 0%nat) by apply (map_nth (fun k => nth k N 0%nat) O 0%nat k).
  rewrite <- E2, E. rewrite seq_nth; auto.
Qed.
Lemma py_get_idx {A} (l : list A) z : py_get l z <> None -> exists k, py_idx l z = Some k /\ (k < length l)%nat.
Proof.
  unfold py_get. destruct (py_idx l z) as [k|] eqn:E; [|contradiction]. intros H. exists k. split; auto. apply nth_error_Some; auto.
Qed.
Lemma py_idx_len {A B} (l : list A) (l' : list B) z : length l = length l' -> py_idx l z = py_idx l' z.
Proof. intros E. unfold py_idx. rewrite E. auto. Qed.
Lemma map_opt_ok {A B} (f : A -> option B) (P : A -> B -> Prop) l : (forall x, In x l -> exists y, f x = Some y /\ P x y) -> exists l', map_opt f l = Some l' /\ Forall2 P l l'.
Proof.
  induction l as [|x l IH]; intros H; cbn. { exists []. split; constructor. }
  destruct (H x) as (y & -> & Hy); [cbn; auto|]. destruct IH as (l' & -> & Hl'); [intros; apply H; cbn; auto|]. exists (y :: l'). split; auto.
Qed.
Lemma Forall2_map_eq {A B C} (f : A -> C) (g : B -> C) l l' : Forall2 (fun a b => f a = g b) l l' -> map f l = map g l'.
Proof. induction 1; cbn; congruence. Qed.
(** every index may be negative in the Python sense; the row lengths are free, so this also covers tetrahedra *)
Theorem C38_axis_sort : forall V T axis, axis <> vzero -> (forall row v, In row T -> In v row -> py_get V v <> None) ->
  exists V' T', axis_sort V T axis = Some (V', T') /\
    Permutation V V' /\ StronglySorted (fun p q => vdot p axis <= vdot q axis) V' /\
    Permutation (map (map (py_get V)) T) (map (map (py_get V')) T') /\
    StronglySorted (fun r s => row_mean r <= row_mean s) T'.
Proof.
  intros V T axis Ha HT. unfold axis_sort. cbv zeta. rewrite !map_length.
  set (d := map (fun p => vdot p (v3_unit axis)) V). set (n := length V).
  set (N := argsort (fun k => nth k d 0) n). set (O := argsort (fun k => INR (nth k N 0%nat)) n).
  set (V' := map (fun k => nth k V vzero) N).
  assert (PN : Permutation (seq 0 n) N) by apply argsort_perm. assert (LN : length N = n) by (rewrite <- (Permutation_length PN); apply seq_length).
  assert (LO : length O = n) by (unfold O; rewrite <- (Permutation_length (argsort_perm _ n)); apply seq_length).
  assert (LV' : length V' = n) by (unfold V'; rewrite map_length; auto).
  destruct (map_opt_ok (map_opt (fun v => option_map Z.of_nat (py_get O v))) (fun r r' => map (py_get V) r = map (py_get V') r') T) as (T' & ET & HT').
  { intros row Hr. destruct (map_opt_ok (fun v => option_map Z.of_nat (py_get O v)) (fun v v' => py_get V v = py_get V' v') row) as (r' & Er & Hr').
    - intros v Hv. destruct (py_get_idx V v (HT _ _ Hr Hv)) as (k & Ek & Hk). fold n in Hk.
      destruct (argsort_inverse N n PN k Hk) as [I1 I2]. fold O in I1, I2.
      assert (EO : py_get O v = Some (nth k O 0%nat)). { unfold py_get. rewrite (py_idx_len O V) by auto. rewrite Ek. apply nth_error_nth'. lia. }
      rewrite EO. eexists. split; [reflexivity|]. rewrite py_get_nat. unfold py_get. rewrite Ek. unfold V'. rewrite nth_error_map.
      rewrite (nth_error_nth' N 0%nat) by lia. rewrite I2. cbn. apply nth_error_nth'. auto.
    - exists r'. split; auto. apply Forall2_map_eq; auto. }
  rewrite ET. eexists. eexists. split; [reflexivity|]. split; [|split; [|split]].
  - unfold V'. rewrite <- PN. unfold n. rewrite map_nth_seq'. auto.
  - unfold V'. apply sorted_map.
    assert (Hn : 0 < vnorm axis). { apply vnorm_pos; auto. }
    pose proof (argsort_sorted (fun k => nth k d 0) n) as S. fold N in S.
    assert (K : forall k, (k < n)%nat -> nth k d 0 = vdot (nth k V vzero) axis / vnorm axis).
    { intros k Hk. unfold d. rewrite (nth_indep _ 0 (vdot vzero (v3_unit axis))) by (rewrite map_length; auto). rewrite (map_nth (fun p => vdot p (v3_unit axis))). unfold v3_unit, vdiv, vdot. cbn. field. lra. }
    assert (FN : Forall (fun k => (k < n)%nat) N). { apply Forall_forall. intros k Hk. assert (In k (seq 0 n)) by (eapply Permutation_in; [apply Permutation_sym; exact PN|auto]). apply in_seq in H. lia. }
    clear - S K FN Hn. induction S; constructor; inversion FN; subst; auto. rewrite Forall_forall in *. intros b Hb. specialize (H b Hb). rewrite !K in H by auto.
    apply (Rmult_le_reg_r (/ vnorm axis)); [apply Rinv_0_lt_compat; auto|]. auto.
  - rewrite (Forall2_map_eq _ _ _ _ HT'). apply Permutation_map. rewrite <- argsort_perm. rewrite map_nth_seq'. auto.
  - apply sorted_map. set (m := length T'). pose proof (argsort_sorted (fun k => nth k (map row_mean T') 0) m) as S.
    assert (FN : Forall (fun k => (k < m)%nat) (argsort (fun k => nth k (map row_mean T') 0) m)).
    { apply Forall_forall. intros k Hk. assert (In k (seq 0 m)) by (eapply Permutation_in; [apply Permutation_sym; apply argsort_perm|eauto]). apply in_seq in H. lia. }
    revert FN. set (l := argsort _ m) in *. clearbody l. intros FN. induction S; constructor; inversion FN; subst; auto. rewrite Forall_forall in *. intros b Hb. specialize (H b Hb).
    assert (K : forall k, (k < m)%nat -> nth k (map row_mean T') 0 = row_mean (nth k T' [])).
    { intros k Hk. rewrite (nth_indep _ 0 (row_mean [])) by (rewrite map_length; auto). apply map_nth. }
    rewrite <- !K by auto. auto.
Qed.
Print Assumptions C38_axis_sort.
Example C38_nonvacuous : exists V' T', axis_sort [mkV 2 0 0; mkV 0 1 0; mkV 1 0 1] [[0; 1; 2]]%Z (mkV 1 0 0) = Some (V', T') /\
  StronglySorted (fun p q => vx p <= vx q) V'.
Proof.
  destruct (C38_axis_sort [mkV 2 0 0; mkV 0 1 0; mkV 1 0 1] [[0; 1; 2]]%Z (mkV 1 0 0)) as (V' & T' & E & _ & S & _).
  - intros E. injection E. lra.
  - intros row v [<-|[]] [<-|[<-|[<-|[]]]]; cbn; discriminate.
  - exists V', T'. split; auto. assert (H : forall p q, vdot p (mkV 1 0 0) <= vdot q (mkV 1 0 0) -> vx p <= vx q) by (intros p q; unfold vdot; cbn; lra).
    clear - S H. induction S; constructor; [auto|]. eapply Forall_impl; [|eassumption]. cbv beta. intros; auto.
Qed.

(** ** C71 scale_to_unit *)
(** Specification: l and u are the corners of the axis aligned bounding box: bounds that are attained *)
Definition bounding_box (V : list vec3) (l u : vec3) : Prop :=
  (forall p, In p V -> v_le l p /\ v_le p u) /\
  (exists p, In p V /\ vx p = vx l) /\ (exists p, In p V /\ vy p = vy l) /\ (exists p, In p V /\ vz p = vz l) /\
  (exists p, In p V /\ vx p = vx u) /\ (exists p, In p V /\ vy p = vy u) /\ (exists p, In p V /\ vz p = vz u).
Lemma fold_att (f : vec3 -> R) (op : vec3 -> vec3 -> vec3) : (forall a b, f (op a b) = f a \/ f (op a b) = f b) ->
  forall t a, exists p, (a = p \/ In p t) /\ f p = f (fold_left op t a).
Proof.
  intros H. induction t as [|b t IH]; intros a; cbn. { exists a; auto. }
  destruct (IH (op a b)) as (p & [<-|Hp] & E); [|exists p; auto].
  destruct (H a b) as [E'|E']; [exists a|exists b]; rewrite <- E, E'; auto.
Qed.
Lemma np_box V l u : np_min0 V = Some l -> np_max0 V = Some u -> bounding_box V l u.
Proof.
  unfold np_min0, np_max0. destruct V as [|a t]; [discriminate|]. intros E1 E2. assert (SI : forall x y : vec3, Some x = Some y -> x = y) by congruence.
  apply SI in E1, E2. subst. split.
  { intros p Hp. split; [apply fold_vmin_le|apply fold_vmax_ge]; destruct Hp; auto. }
  assert (M : forall x y, Rmin x y = x \/ Rmin x y = y) by (intros; unfold Rmin; destruct (Rle_dec x y); auto).
  assert (M' : forall x y, Rmax x y = x \/ Rmax x y = y) by (intros; unfold Rmax; destruct (Rle_dec x y); auto).
  split; [apply (fold_att vx); intros; apply M|]. split; [apply (fold_att vy); intros; apply M|]. split; [apply (fold_att vz); intros; apply M|].
  split; [apply (fold_att vx); intros; apply M'|]. split; [apply (fold_att vy); intros; apply M'|apply (fold_att vz); intros; apply M'].
Qed.
(** scale_to_unit keeps the centre of the box, multiplies all offsets from it by the same factor and makes the
    largest extent exactly 1 *)
Theorem C71_scale_to_unit : forall V V', scale_to_unit V = Some V' -> forall l u, bounding_box V l u ->
  let c := vscale (1 / 2) (vadd l u) in
  exists s l' u', 0 < s /\ V' = map (fun p => vadd c (vscale s (vsub p c))) V /\ bounding_box V' l' u' /\
    vscale (1 / 2) (vadd l' u') = c /\ vmaxcomp (vsub u' l') = 1.
Proof.
  intros V V' E l u HB c. unfold scale_to_unit in E. destruct (np_min0 V) as [l0|] eqn:E1; [|discriminate]. destruct (np_max0 V) as [u0|] eqn:E2; [|discriminate].
  assert (UB : l0 = l /\ u0 = u).
  { pose proof (np_box V l0 u0 E1 E2) as HB0. clear - HB HB0. destruct HB as (B & (p1 & I1 & F1) & (p2 & I2 & F2) & (p3 & I3 & F3) & (p4 & I4 & F4) & (p5 & I5 & F5) & (p6 & I6 & F6)).
    destruct HB0 as (B0 & (q1 & J1 & G1) & (q2 & J2 & G2) & (q3 & J3 & G3) & (q4 & J4 & G4) & (q5 & J5 & G5) & (q6 & J6 & G6)). unfold v_le in *.
    split.
    - pose proof (B q1 J1). pose proof (B q2 J2). pose proof (B q3 J3). pose proof (B0 p1 I1). pose proof (B0 p2 I2). pose proof (B0 p3 I3). destruct l0, l. cbn in *. f_equal; lra.
    - pose proof (B q4 J4). pose proof (B q5 J5). pose proof (B q6 J6). pose proof (B0 p4 I4). pose proof (B0 p5 I5). pose proof (B0 p6 I6). destruct u0, u. cbn in *. f_equal; lra. }
  destruct UB as [-> ->]. destruct (Reqb_spec (vmaxcomp (vsub u l)) 0) as [|Hm]; [discriminate|].
  assert (SI : forall x y : list vec3, Some x = Some y -> x = y) by congruence. apply SI in E. clear SI. subst V'.
  set (m := vmaxcomp (vsub u l)) in *.
  assert (Hpos : 0 < m).
  { destruct HB as (B & (p1 & I1 & F1) & _). destruct (B p1 I1) as [[? _] [? _]]. assert (0 <= m); [|lra]. unfold m, vmaxcomp. cbn. pose proof (Rmax_l (vx u - vx l) (vy u - vy l)). pose proof (Rmax_l (Rmax (vx u - vx l) (vy u - vy l)) (vz u - vz l)). lra. }
  set (s := 1 / m). assert (Hs : 0 < s) by (unfold s; apply Rdiv_lt_0_compat; lra).
  set (f := fun p => vadd c (vscale s (vsub p c))).
  assert (EV : mesh_translate (mesh_scale (mesh_translate V (vopp (vdiv (vadd l u) 2))) s s s) (vdiv (vadd l u) 2) = map f V).
  { unfold mesh_translate, mesh_scale. rewrite !map_map. apply map_ext. intros p. unfold f, c, vmul3. vunf. f_equal; field. }
  rewrite EV. exists s, (f l), (f u). split; auto. split; auto.
  assert (Mo : forall a b, a <= b -> s * a <= s * b) by (intros; apply Rmult_le_compat_l; lra).
  split; [|split].
  - destruct HB as (B & (p1 & I1 & F1) & (p2 & I2 & F2) & (p3 & I3 & F3) & (p4 & I4 & F4) & (p5 & I5 & F5) & (p6 & I6 & F6)). split.
    { intros p' Hp'. apply in_map_iff in Hp'. destruct Hp' as (p & <- & Hp). destruct (B p Hp) as [(?&?&?) (?&?&?)]. unfold f, v_le. cbn.
      repeat match goal with |- _ /\ _ => split end; apply Rplus_le_compat_l, Mo; lra. }
    split; [exists (f p1)|split; [exists (f p2)|split; [exists (f p3)|split; [exists (f p4)|split; [exists (f p5)|exists (f p6)]]]]];
      (split; [apply in_map; auto|unfold f; cbn]); congruence.
  - unfold f, c. vunf. f_equal; field.
  - assert (S1 : s * m = 1) by (unfold s; field; lra). rewrite <- S1. unfold m, vmaxcomp, f. cbn. rewrite <- !RmaxRmult by lra. f_equal; [f_equal|]; ring.
Qed.
Print Assumptions C71_scale_to_unit.
(** it fails only for an empty mesh or one whose box has extent zero *)
Theorem C71_scale_to_unit_total : forall V l u, bounding_box V l u -> 0 < vmaxcomp (vsub u l) -> scale_to_unit V <> None.
Proof.
  intros V l u HB Hm. destruct (np_min0 V) as [l0|] eqn:E1, (np_max0 V) as [u0|] eqn:E2;
    [|destruct V; [destruct HB as (_ & (p & [] & _) & _)|discriminate]..].
  unfold scale_to_unit. rewrite E1, E2. destruct (Reqb_spec (vmaxcomp (vsub u0 l0)) 0) as [E0|]; [|discriminate]. exfalso.
  pose proof (np_box V l0 u0 E1 E2) as (B0 & _). destruct HB as (_ & (p1 & I1 & F1) & (p2 & I2 & F2) & (p3 & I3 & F3) & (p4 & I4 & F4) & (p5 & I5 & F5) & (p6 & I6 & F6)).
  pose proof (B0 p1 I1). pose proof (B0 p2 I2). pose proof (B0 p3 I3). pose proof (B0 p4 I4). pose proof (B0 p5 I5). pose proof (B0 p6 I6). unfold v_le in *.
  unfold vmaxcomp in *. cbn in *.
  pose proof (Rmax_l (vx u0 - vx l0) (vy u0 - vy l0)). pose proof (Rmax_r (vx u0 - vx l0) (vy u0 - vy l0)). pose proof (Rmax_l (Rmax (vx u0 - vx l0) (vy u0 - vy l0)) (vz u0 - vz l0)). pose proof (Rmax_r (Rmax (vx u0 - vx l0) (vy u0 - vy l0)) (vz u0 - vz l0)).
  assert (Rmax (Rmax (vx u - vx l) (vy u - vy l)) (vz u - vz l) <= 0); [|lra]. apply Rmax_lub; [apply Rmax_lub|]; lra.
Qed.
Print Assumptions C71_scale_to_unit_total.
Example C71_nonvacuous : bounding_box [mkV 1 0 0; mkV 3 1 0] (mkV 1 0 0) (mkV 3 1 0) /\ 0 < vmaxcomp (vsub (mkV 3 1 0) (mkV 1 0 0)).
Proof.
  split.
  - split. { intros p [<-|[<-|[]]]; unfold v_le; cbn; lra. }
    split; [exists (mkV 1 0 0); cbn; auto|]. split; [exists (mkV 1 0 0); cbn; auto|]. split; [exists (mkV 1 0 0); cbn; auto|].
    split; [exists (mkV 3 1 0); cbn; auto|]. split; exists (mkV 3 1 0); cbn; auto.
  - unfold vmaxcomp. cbn. eapply Rlt_le_trans; [|apply Rmax_l]. eapply Rlt_le_trans; [|apply Rmax_l]. lra.
Qed.

(** ** C72 create_convex_hull turns every triangle away from the centre *)
(** Specification: twice the vector area of the triangle dotted with (point on it - pm); non-negative iff the
    counter-clockwise normal points away from pm *)
Definition outward_of (V : list vec3) (pm : vec3) (t : tri) : Prop :=
  let '(i, j, k) := t in exists a b c, py_get V i = Some a /\ py_get V j = Some b /\ py_get V k = Some c /\
  0 <= vdot (vsub a pm) (vcross (vsub b a) (vsub c a)).
Definition tri_list (t : tri) : list Z := let '(i, j, k) := t in [i; j; k].
Theorem C72_convex_hull : forall V T, (forall i j k v, In (i, j, k) T -> In v [i; j; k] -> py_get V v <> None) ->
  exists T', convex_hull_orient V T = Some T' /\
    Forall2 (fun t t' => Permutation (tri_list t) (tri_list t')) T T' /\
    forall t, In t T' -> outward_of V (vmean V) t.
Proof.
  intros V T HV. unfold convex_hull_orient. destruct (map_opt_ok (orient_ccw V (vmean V)) (fun t t' => Permutation (tri_list t) (tri_list t') /\ outward_of V (vmean V) t') T) as (T' & E & F).
  - intros [[i j] k] Ht. unfold orient_ccw.
    destruct (py_get V i) as [a|] eqn:Ea; [|exfalso; eapply (HV i j k i); cbn; auto]. destruct (py_get V j) as [b|] eqn:Eb; [|exfalso; eapply (HV i j k j); cbn; auto].
    destruct (py_get V k) as [c|] eqn:Ec; [|exfalso; eapply (HV i j k k); cbn; auto].
    destruct (Rltb_spec 0 (vdot (vsub (vmean V) a) (vcross (vsub b a) (vsub c a)))) as [Hd|Hd]; eexists; (split; [reflexivity|]); split; cbn [tri_list outward_of].
    + apply perm_swap.
    + exists b, a, c. repeat match goal with |- _ /\ _ => split end; auto. revert Hd. vunf. generalize (vmean V). intros m. nra.
    + auto.
    + exists a, b, c. repeat match goal with |- _ /\ _ => split end; auto. revert Hd. vunf. generalize (vmean V). intros m. nra.
  - exists T'. split; auto. split; [clear - F; induction F; constructor; tauto|].
    clear E. induction F; intros t0 H0; cbn in H0; [contradiction|]. destruct H0 as [<-|H0]; [tauto|]. apply IHF; auto. intros; eapply HV; cbn; eauto.
Qed.
Print Assumptions C72_convex_hull.
Example C72_nonvacuous : exists T', convex_hull_orient [mkV 0 0 0; mkV 1 0 0; mkV 0 1 0; mkV 0 0 1] [(0, 1, 2); (0, 1, 3); (0, 2, 3); (1, 2, 3)]%Z = Some T' /\ length T' = 4%nat.
Proof.
  destruct (C72_convex_hull [mkV 0 0 0; mkV 1 0 0; mkV 0 1 0; mkV 0 0 1] [(0, 1, 2); (0, 1, 3); (0, 2, 3); (1, 2, 3)]%Z) as (T' & E & F & _).
  - intros i j k v H Hv. cbn in H. decompose [or] H; try contradiction; match goal with Q : (_, _, _) = _ |- _ => injection Q as <- <- <- end; cbn in Hv; decompose [or] Hv; try contradiction; subst v; cbn; discriminate.
  - exists T'. split; auto. clear E. do 4 (inversion F as [|? ? ? ? _ F']; subst; rename F into G; rename F' into F; clear G). inversion F. reflexivity.
Qed.
