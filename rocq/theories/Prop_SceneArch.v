(** C146: an arch of stones on two piers. *)
From Verif Require Import Base QuatModel QuatProofs VecModel VecProofs BvhModel BvhSpec GridModel VolModel RigidTypes RigidSpec CollModel BaryModel MassModel MassSpec MassProofs MassProofs2 Prop_Mass
  StepModel StepProofs StepProofs2 ReadySpec ReadyProofs ConSpec ApiModel ApiSpec ApiProofs RotModel RotProofs QuatMatProofs Prop_Rotation Prop_Api Prop_Api2
  ProxProofs SurfModel SurfSpec SceneModel SceneSpec SceneMesh SceneProofs SceneShape SceneBox SceneWedge ScenePlace Prop_Scene Prop_SceneChain Prop_SceneLattice Prop_SceneTower.
From Coq Require Import Permutation.
Open Scope R_scope.

(** ** what is built *)
(** a stone of the ring, before it is turned: between the radii ri and ro and the angles -a and a, of depth d, around the origin *)
Definition ring_stone (ri ro d a : R) : list vec3 * list tri :=
  create_cuboid (mkV (ri * cos a) (- (ri * sin a)) (d / 2)) (mkV (ro * cos a) (- (ro * sin a)) (d / 2)) (mkV (ro * cos a) (ro * sin a) (d / 2)) (mkV (ri * cos a) (ri * sin a) (d / 2))
                (mkV (ri * cos a) (- (ri * sin a)) (- d / 2)) (mkV (ro * cos a) (- (ro * sin a)) (- d / 2)) (mkV (ro * cos a) (ro * sin a) (- d / 2)) (mkV (ri * cos a) (ri * sin a) (- d / 2)).
(** its volume, and how far its centre of mass is from the circle of radius 2/5 width in the middle of the ring *)
Definition ring_volume (width depth a : R) : R := 4 / 25 * (width * width) * depth * (sin a * cos a).
Definition ring_offset (width a : R) : R := width * (49 / 120 * cos a - 2 / 5).
(** no length or volume is so small that the library rounds it to zero *)
Definition clear_arch (width depth a : R) : Prop := tiny < ring_volume width depth a /\ not_tiny (ring_offset width a) /\ tiny < depth / 2.
(** the arguments that are accepted *)
Definition arch_arguments (width height depth : R) (pier_stones arch_stones : Z) (density : R) : Prop :=
  0 < width /\ width / 2 < height /\ 0 < depth /\ (1 <= pier_stones)%Z /\ (3 <= arch_stones)%Z /\ Z.Odd arch_stones /\ 0 < density.
Definition big_arch (width h depth a : R) : Prop :=
  big_box (width / 5) h depth /\
  big_wedge (3 / 10 * width * cos a - 2 / 5 * width) (1 / 2 * width * cos a - 2 / 5 * width) (3 / 10 * width * sin a) (1 / 2 * width * sin a) depth.

Lemma rejects_false width height depth ps ars density : arch_rejects width height depth ps ars density = false <-> arch_arguments width height depth ps ars density.
Proof.
  unfold arch_rejects, arch_arguments. rewrite !orb_false_iff.
  assert (L : forall x y, Rleb x y = false <-> y < x). { intros x y. destruct (Rleb_spec x y); split; intros; try lra; auto; discriminate. }
  rewrite !L, !Z.leb_gt, !Z.eqb_neq. rewrite <- Z.odd_spec. rewrite Zmod_odd. destruct (Z.odd ars); split; intros H; repeat match goal with H : _ /\ _ |- _ => destruct H end; repeat split; try lra; try lia; try congruence.
Qed.
(** ** arguments that make no sense are refused, and nothing is created *)
Theorem C146_rejects eig sd e fresh r q width height depth ps ars density mat : ~ arch_arguments width height depth ps ars density ->
  create_arch eig sd fresh r q width height depth ps ars density mat e = (Raised e, []).
Proof.
  intros H. unfold create_arch. destruct (arch_rejects _ _ _ _ _ _) eqn:E; [reflexivity|]. exfalso. apply H. apply rejects_false. exact E.
Qed.

Lemma half_turn ars : (3 <= ars)%Z -> let a := PI / (2 * IZR ars) in 0 < a /\ a <= PI / 6 /\ IZR ars * (2 * a) = PI /\ PI / IZR ars = 2 * a.
Proof.
  intros H a. pose proof PI_RGT_0. apply IZR_le in H. split; [apply Rdiv_lt_0_compat; lra|]. split; [|unfold a; split; field; lra].
  unfold a, Rdiv. apply Rmult_le_compat_l; [lra|]. apply Rinv_le_contravar; lra.
Qed.
Lemma trig_pos a : 0 < a -> a <= PI / 6 -> 0 < sin a /\ 0 < cos a.
Proof. intros H1 H2. pose proof PI_RGT_0. split; [apply sin_gt_0; lra|apply cos_gt_0; lra]. Qed.

(** the mesh of the code *)
Lemma shift_mesh f p0 p1 p2 p3 p4 p5 p6 p7 : (map f (fst (create_cuboid p0 p1 p2 p3 p4 p5 p6 p7)), snd (create_cuboid p0 p1 p2 p3 p4 p5 p6 p7)) = create_cuboid (f p0) (f p1) (f p2) (f p3) (f p4) (f p5) (f p6) (f p7).
Proof. reflexivity. Qed.
Lemma mesh_shift width depth a : arch_mesh width (width / 5) depth (2 * a) =
  (map (fun p => vsub p (mkV (2 / 5 * width) 0 (depth / 2))) (fst (ring_stone (3 / 10 * width) (1 / 2 * width) depth a)), snd (ring_stone (3 / 10 * width) (1 / 2 * width) depth a)).
Proof.
  unfold ring_stone. rewrite (shift_mesh (fun p => vsub p (mkV (2 / 5 * width) 0 (depth / 2)))). unfold arch_mesh, arch_r0. cbv zeta. rewrite !Rz_rotate.
  replace (- (2 * a) / 2) with (- a) by field. replace (2 * a / 2) with a by field. rewrite cos_neg, sin_neg. unfold vsub. cbn [vx vy vz].
  f_equal; apply (f_equal3 mkV); field.
Qed.
Lemma mesh_wedge width depth a : arch_mesh width (width / 5) depth (2 * a) =
  wedge (3 / 10 * width * cos a - 2 / 5 * width) (1 / 2 * width * cos a - 2 / 5 * width) (3 / 10 * width * sin a) (1 / 2 * width * sin a) depth.
Proof.
  rewrite mesh_shift. unfold ring_stone. rewrite (shift_mesh (fun p => vsub p (mkV (2 / 5 * width) 0 (depth / 2)))). unfold wedge, vsub. cbn [vx vy vz].
  f_equal; apply (f_equal3 mkV); field.
Qed.
Lemma wedge_facts width depth a : 0 < width -> 0 < sin a -> 0 < cos a ->
  let x0 := 3 / 10 * width * cos a - 2 / 5 * width in let x1 := 1 / 2 * width * cos a - 2 / 5 * width in let y0 := 3 / 10 * width * sin a in let y1 := 1 / 2 * width * sin a in
  x0 < x1 /\ 0 < y0 /\ 0 < y1 /\ wedge_vol x0 x1 y0 y1 depth = ring_volume width depth a /\ wedge_cx x0 x1 y0 y1 = ring_offset width a.
Proof.
  intros Hw Hs Hc x0 x1 y0 y1. assert (P1 : 0 < width * cos a) by (apply Rmult_lt_0_compat; auto). assert (P2 : 0 < width * sin a) by (apply Rmult_lt_0_compat; auto).
  split; [unfold x0, x1; lra|]. split; [unfold y0; lra|]. split; [unfold y1; lra|]. split; [unfold wedge_vol, ring_volume, x0, x1, y0, y1; field|].
  unfold wedge_cx, ring_offset, x0, x1, y0, y1. field. intros Z. lra.
Qed.
Lemma clear_wedge_arch width depth a : 0 < width -> 0 < sin a -> 0 < cos a -> clear_arch width depth a ->
  clear_wedge (3 / 10 * width * cos a - 2 / 5 * width) (1 / 2 * width * cos a - 2 / 5 * width) (3 / 10 * width * sin a) (1 / 2 * width * sin a) depth.
Proof.
  intros Hw Hs Hc (H1 & H2 & H3). destruct (wedge_facts width depth a Hw Hs Hc) as (_ & _ & _ & EV & EC). unfold clear_wedge. rewrite EV, EC. split; [exact H1|]. split; [exact H2|].
  right. replace (- depth / 2) with (- (depth / 2)) by field. unfold tiny in H3. rewrite Rabs_Ropp, Rabs_pos_eq; lra.
Qed.
Lemma stands_shift e n V T r0 r q : stands e n (map (fun p => vsub p r0) V, T) (vadd (q_rotate q r0) r) q -> stands e n (V, T) r q.
Proof.
  intros (W & T' & HW & H1 & H2). cbn [fst snd] in *. rewrite map_map in H1, H2.
  assert (E : map (fun x => at_pose (vadd (q_rotate q r0) r) q (vsub x r0)) V = map (at_pose r q) V).
  { apply map_ext. intros p. unfold at_pose. replace (vsub p r0) with (vadd p (vscale (- (1)) r0)) by (destruct p, r0; unfold vsub, vadd, vscale; cbn; apply (f_equal3 mkV); ring).
    rewrite q_rotate_add, q_rotate_scale. destruct (q_rotate q p), (q_rotate q r0), r. unfold vadd, vscale; cbn. apply (f_equal3 mkV); ring. }
  rewrite E in H1, H2. exists W, T'. split; [exact HW|]. split; [exact H1|exact H2].
Qed.
(** ** names *)
Lemma nd_once {A} (l l' : list A) x : NoDup (l ++ l') -> In x l -> In x l' -> False.
Proof.
  induction l as [|a l IH]; cbn; intros H Hx Hx'; [auto|]. inversion H as [|? ? H1 H2]; subst. destruct Hx as [->|Hx]; [|auto]. apply H1. apply in_or_app; auto.
Qed.
Lemma nd_parts {A} (l l' : list A) : NoDup (l ++ l') -> NoDup l /\ NoDup l'.
Proof.
  induction l as [|a l IH]; cbn; intros H; [split; [constructor|auto]|]. inversion H as [|? ? H1 H2]; subst. destruct (IH H2) as [I1 I2]. split; [|auto]. constructor; auto. intros Z. apply H1. apply in_or_app; auto.
Qed.
Lemma nd_app {A} (l l' : list A) : NoDup l -> NoDup l' -> (forall x, In x l -> ~ In x l') -> NoDup (l ++ l').
Proof.
  intros H1 H2 H3. induction H1 as [|a l Ha H1 IH]; cbn; auto. constructor; [rewrite in_app_iff; intros [H|H]; [auto|exact (H3 a (or_introl eq_refl) H)]|]. apply IH. intros x Hx. apply H3. right; auto.
Qed.
Lemma pier_indices P s : flat_map (fun k => [1 + 2 * k; 2 + 2 * k]%nat) (seq s P) = seq (1 + 2 * s) (2 * P).
Proof.
  revert s. induction P as [|P IH]; intros s; [reflexivity|]. cbn [seq flat_map app]. rewrite IH. replace (2 * S P)%nat with (S (S (2 * P))) by lia. cbn [seq]. f_equal. f_equal. f_equal. lia.
Qed.
Lemma flat_map_map {A B C} (f : B -> C) (g : A -> list B) l : map f (flat_map g l) = flat_map (fun x => map f (g x)) l.
Proof. induction l; cbn; auto. rewrite map_app, IHl. reflexivity. Qed.
Lemma find_app_l (e : engine) l n s : find_shape e n = Some s -> find_shape (set_shapes e (e_shapes e ++ l)) n = Some s.
Proof.
  unfold find_shape. cbn [set_shapes e_shapes]. induction (e_shapes e) as [|a t IH]; cbn [find app]; [discriminate|]. destruct (name_eqb (sh_name a) n); auto.
Qed.

(** ** the arch *)
Theorem C146_arch eig sd e fresh r q width height depth ps ars density mat : eig_diagonal eig -> reach eig sd sane_params e -> (2 <= p_resolution (e_params e))%Z ->
  new_names e fresh -> exist_material (e_lib e) mat = true -> is_unit q -> arch_arguments width height depth ps ars density ->
  let h := (height - width / 2) / IZR ps in let a := PI / (2 * IZR ars) in clear_arch width depth a ->
  exists e' names, create_arch eig sd fresh r q width height depth ps ars density mat e = (Done e', names) /\ reach eig sd sane_params e' /\
    adds e e' names /\ e_hinges e' = e_hinges e /\ Z.of_nat (length names) = (2 * ps + ars)%Z /\ NoDup names /\ names_from fresh e e' names /\
    (* the stones of the left and of the right pier *)
    (forall (right : bool) k, (Z.of_nat k < ps)%Z -> exists n, nth_error names (2 * k + if right then 1 else 0) = Some n /\
       stands e' n (create_box (width / 5) h depth) (at_pose r q (mkV ((if right then 2 / 5 else - (2 / 5)) * width) ((INR k + 1 / 2) * h) 0)) q /\
       exists m, pos_up_to_clamp (width / 5 * h * depth) m /\ at_rest e' n false mat (m * density)) /\
    (* the stones of the ring *)
    (forall k, (Z.of_nat k < ars)%Z -> exists n, nth_error names (2 * Z.to_nat ps + k) = Some n /\
       stands e' n (ring_stone (3 / 10 * width) (1 / 2 * width) depth a) (at_pose r q (mkV 0 (height - width / 2) 0)) (q_prod q (q_Rz ((2 * INR k + 1) * a))) /\
       at_rest e' n false mat (ring_volume width depth a * density)) /\
    (set_up e -> big_arch width h depth a -> set_up e').
Proof.
  intros HE HR HN (HI & HF) HM HQ HA h a HC. pose proof HA as (Hw & Hh & Hd & Hp & Har & Hodd & Hdens).
  destruct (half_turn ars Har) as (A0 & A1 & A2 & A3). fold a in A0, A1, A2, A3. destruct (trig_pos a A0 A1) as [SP CP].
  assert (Ph : 0 < h). { apply Rdiv_lt_0_compat; [lra|]. apply (IZR_lt 0). lia. }
  destruct (wedge_facts width depth a Hw SP CP) as (W1 & W2 & W3 & WV & WC). pose proof (clear_wedge_arch width depth a Hw SP CP HC) as CW.
  set (x0 := 3 / 10 * width * cos a - 2 / 5 * width) in *. set (x1 := 1 / 2 * width * cos a - 2 / 5 * width) in *. set (y0 := 3 / 10 * width * sin a) in *. set (y1 := 1 / 2 * width * sin a) in *.
  set (P := Z.to_nat ps). set (Ar := Z.to_nat ars).
  set (piers := flat_map (arch_pier fresh r q width (width / 5) h) (seq 0 P)).
  set (ring := map (arch_stone fresh r q width (width / 5) depth (height - width / 2) (2 * a) P) (seq 0 Ar)).
  assert (EI : map it_name (piers ++ ring) = map fresh (seq 1 (2 * P) ++ seq (2 + 2 * P) Ar)).
  { rewrite !map_app. f_equal.
    - unfold piers. rewrite flat_map_map. change (seq 1 (2 * P)) with (seq (1 + 2 * 0) (2 * P)). rewrite <- (pier_indices P 0), flat_map_map. apply flat_map_ext. intros k. reflexivity.
    - unfold ring. rewrite map_map. change (fun x => it_name (arch_stone fresh r q width (width / 5) depth (height - width / 2) (2 * a) P x)) with (fun x => fresh (2 + 2 * P + x)%nat).
      rewrite <- (map_map (fun x => (2 + 2 * P + x)%nat) fresh). f_equal. clear. generalize (2 + 2 * P)%nat as m. induction Ar as [|n IH]; intros m; [reflexivity|]. cbn [seq map]. rewrite Nat.add_0_r. f_equal. rewrite <- (IH (S m)). rewrite <- seq_shift, map_map. apply map_ext. intros. lia. }
  assert (ND : NoDup (map it_name (piers ++ ring))).
  { rewrite EI. apply FinFun.Injective_map_NoDup; [intros i j; apply HI|]. apply nd_app; [apply seq_NoDup|apply seq_NoDup|]. intros x Hx Hx'. apply in_seq in Hx, Hx'. lia. }
  assert (NM : forall x, In x (piers ++ ring) -> exists m, it_name x = fresh m). { intros x Hx. apply (in_map it_name) in Hx. rewrite EI in Hx. apply in_map_iff in Hx as (m & <- & _). exists m. reflexivity. }
  assert (NI : forall x, In x (piers ++ ring) -> ~ In (it_name x) (map b_name (e_bodies e))). { intros x Hx. destruct (NM x Hx) as (m & ->). exact (proj1 (HF m)). }
  assert (SP0 : forall x, In x piers -> it_shape x = fresh 0%nat). { intros x Hx. apply in_flat_map in Hx as (k & _ & [<-|[<-|[]]]); reflexivity. }
  assert (SR0 : forall x, In x ring -> it_shape x = fresh (1 + 2 * P)%nat). { intros x Hx. apply in_map_iff in Hx as (k & <- & _). reflexivity. }
  assert (NP : NoDup (map it_name piers)). { rewrite map_app in ND. apply nd_parts in ND. apply ND. }
  assert (NR : NoDup (map it_name ring)). { rewrite map_app in ND. apply nd_parts in ND. apply ND. }
  assert (DIS : forall x y, In x piers -> In y ring -> it_name x <> it_name y). { intros x y Hx Hy E. rewrite map_app in ND. apply (in_map it_name) in Hx, Hy. rewrite E in Hx. exact (nd_once _ _ _ ND Hx Hy). }
  (* the shape of the piers and the piers *)
  destruct (make_one_shape eig sd e (fresh 0%nat) (boxV (width / 5) h depth) (boxT (width / 5) h depth) HE HR HN (proj2 (HF 0%nat)) (box_good (width / 5) h depth ltac:(lra) Ph Hd)) as (s & ES & R1 & EN & FS & IS).
  set (e1 := set_shapes e (e_shapes e ++ [s])) in *.
  destruct (place_all_ok eig sd piers e1 R1) as (bs & EP & FP & R2).
  { intros x Hx. rewrite (SP0 x Hx). exists s. exact FS. } { exact NP. } { intros x Hx. apply NI. apply in_or_app; auto. }
  change (e_bodies e1) with (e_bodies e) in *. set (e2 := set_bodies e1 (e_bodies e ++ bs)) in *.
  (* the shape of the ring and the ring *)
  assert (HN2 : (2 <= p_resolution (e_params e2))%Z) by exact HN.
  assert (NS : ~ In (fresh (1 + 2 * P)%nat) (map sh_name (e_shapes e2))).
  { cbn [e2 e1 set_bodies set_shapes e_shapes]. rewrite map_app, in_app_iff. intros [H|[H|[]]]; [exact (proj2 (HF _) H)|]. rewrite EN in H. apply HI in H. lia. }
  destruct (make_one_shape eig sd e2 (fresh (1 + 2 * P)%nat) (wedgeV x0 x1 y0 y1 depth) (wedgeT x0 x1 y0 y1 depth) HE R2 HN2 NS (wedge_good x0 x1 y0 y1 depth W1 W2 W3 Hd CW)) as (s' & ES' & R3 & EN' & FS' & IS').
  set (e3 := set_shapes e2 (e_shapes e2 ++ [s'])) in *.
  destruct (place_all_ok eig sd ring e3 R3) as (bs' & EP' & FP' & R4).
  { intros x Hx. rewrite (SR0 x Hx). exists s'. exact FS'. } { exact NR. }
  { intros x Hx H. cbn [e3 e2 e1 set_bodies set_shapes e_bodies] in H. rewrite map_app, (placed_names _ _ _ FP), in_app_iff in H. destruct H as [H|H]; [revert H; apply NI; apply in_or_app; auto|].
    apply in_map_iff in H as (y & E & Hy). exact (DIS y x Hy Hx E). }
  set (e0 := set_shapes e (e_shapes e ++ [s; s'])).
  assert (E4 : set_bodies e3 (e_bodies e3 ++ bs') = set_bodies e0 (e_bodies e ++ (bs ++ bs'))).
  { unfold e3, e2, e1, e0. cbn [set_bodies set_shapes e_bodies e_shapes]. rewrite <- !app_assoc. reflexivity. }
  rewrite E4 in EP', R4. set (e4 := set_bodies e0 (e_bodies e ++ (bs ++ bs'))) in *.
  assert (F0 : find_shape e0 (fresh 0%nat) = Some s). { pose proof (find_app_l e1 [s'] _ _ FS) as H. unfold e1 in H. cbn [set_shapes e_shapes] in H. rewrite <- app_assoc in H. exact H. }
  assert (F1 : find_shape e0 (fresh (1 + 2 * P)%nat) = Some s'). { unfold e3, e2, e1 in FS'. cbn [set_bodies set_shapes e_shapes] in FS'. rewrite <- app_assoc in FS'. exact FS'. }
  assert (FA : Forall2 (placed e0) (piers ++ ring) (bs ++ bs')).
  { apply Forall2_app.
    - clear - FP SP0 F0 FS. induction FP as [|x b l bz H F IH]; constructor.
      + destruct H as (t & i & j & H1 & H2). rewrite (SP0 x (or_introl eq_refl)), FS in H1. exists t, i, j. rewrite (SP0 x (or_introl eq_refl)). split; [congruence|exact H2].
      + apply IH. intros y Hy. apply SP0. right; auto.
    - clear - FP' SR0 F1 FS'. induction FP' as [|x b l bz H F IH]; constructor.
      + destruct H as (t & i & j & H1 & H2). rewrite (SR0 x (or_introl eq_refl)), FS' in H1. exists t, i, j. rewrite (SR0 x (or_introl eq_refl)). split; [congruence|exact H2].
      + apply IH. intros y Hy. apply SR0. right; auto. }
  destruct (finish_all_ok mat density (piers ++ ring) e0 e4 (e_bodies e) (bs ++ bs') eq_refl FA (reach_names _ _ _ _ R4) HM) as (bf & EF & FF).
  pose proof (finish_all_reach _ _ _ _ _ _ _ R4 EF) as R5.
  change (set_bodies e4 (e_bodies e ++ bf)) with (set_bodies e0 (e_bodies e ++ bf)) in *.
  set (mesh := fun n : name => if name_eqb n (fresh 0%nat) then create_box (width / 5) h depth else wedge x0 x1 y0 y1 depth).
  assert (M0 : mesh (fresh 0%nat) = create_box (width / 5) h depth) by (unfold mesh; rewrite name_eqb_refl; reflexivity).
  assert (M1 : mesh (fresh (1 + 2 * P)%nat) = wedge x0 x1 y0 y1 depth). { unfold mesh. destruct (name_eqb_spec (fresh (1 + 2 * P)%nat) (fresh 0%nat)) as [E|E]; [|reflexivity]. apply HI in E. lia. }
  destruct (builder_result eig sd e [s; s'] false mat density mesh (piers ++ ring) bf R5 NI FF) as (HAd & HH & HST & HU).
  { intros x t Hx Ht. fold e0 in Ht. apply in_app_or in Hx as [Hx|Hx].
    - rewrite (SP0 x Hx) in *. rewrite F0 in Ht. apply some_eq in Ht. subst t. rewrite M0. exact IS.
    - rewrite (SR0 x Hx) in *. rewrite F1 in Ht. apply some_eq in Ht. subst t. rewrite M1. exact IS'. }
  fold e0 in HAd, HH, HST, HU.
  exists (set_bodies e0 (e_bodies e ++ bf)), (map it_name (piers ++ ring)).
  split.
  { unfold create_arch. rewrite (proj2 (rejects_false width height depth ps ars density) HA). cbv zeta. fold P Ar h. rewrite A3. fold piers ring.
    apply f_equal2; [|reflexivity]. change (create_box (width / 5) h depth) with (boxV (width / 5) h depth, boxT (width / 5) h depth). rewrite ES. cbn [andthen]. fold e1. rewrite EP. cbn [andthen]. fold e2.
    rewrite mesh_wedge. fold x0 x1 y0 y1. change (wedge x0 x1 y0 y1 depth) with (wedgeV x0 x1 y0 y1 depth, wedgeT x0 x1 y0 y1 depth). rewrite ES'. cbn [andthen]. fold e3. rewrite EP'. cbn [andthen]. exact EF. }
  split; [exact R5|]. split; [exact HAd|]. split; [exact HH|].
  split. { rewrite EI, map_length, app_length, !seq_length. unfold P, Ar. lia. }
  split; [exact ND|].
  split.
  { split; [intros n Hn; rewrite EI in Hn; apply in_map_iff in Hn as (m & <- & _); exists m; reflexivity|]. intros m Hm. cbn [set_bodies set_shapes e_shapes e0] in Hm. rewrite map_app, in_app_iff in Hm.
    destruct Hm as [Hm|[Hm|[Hm|[]]]]; [left; exact Hm|right; exists 0%nat; congruence|right; exists (1 + 2 * P)%nat; congruence]. }
  assert (LP : length piers = (P * 2)%nat). { unfold piers. rewrite (flat_map_len _ 2); [rewrite seq_length; reflexivity|]. intros; reflexivity. }
  split; [|split].
  - intros right k Hk. assert (HkP : (k < P)%nat) by (unfold P; lia).
    assert (NE : nth_error piers (k * 2 + if right then 1 else 0) = nth_error (arch_pier fresh r q width (width / 5) h k) (if right then 1 else 0)%nat).
    { unfold piers. apply (nth_flat_map (arch_pier fresh r q width (width / 5) h) 2 (seq 0 P) k (if right then 1 else 0)%nat k); [intros; reflexivity|apply seq_nth_error; auto|destruct right; lia]. }
    set (x := nth (if right then 1 else 0)%nat (arch_pier fresh r q width (width / 5) h k) (fresh 0%nat, fresh 0%nat, vzero, q_identity)).
    assert (NX : nth_error piers (k * 2 + if right then 1 else 0) = Some x) by (rewrite NE; destruct right; reflexivity).
    assert (IX : In x (piers ++ ring)) by (apply in_or_app; left; eapply nth_error_In; exact NX).
    exists (it_name x). split. { rewrite nth_error_map, nth_error_app1 by (rewrite LP; destruct right; lia). rewrite (Nat.mul_comm 2 k), NX. reflexivity. }
    destruct (HST x IX) as [H1 (m & H2 & H3)]. assert (SX : it_shape x = fresh 0%nat) by (destruct right; reflexivity). rewrite SX, M0 in H1, H2.
    assert (RX : it_r x = at_pose r q (mkV ((if right then 2 / 5 else - (2 / 5)) * width) ((INR k + 1 / 2) * h) 0)).
    { unfold x, at_pose. destruct right; cbn [nth arch_pier in_world it_r]; (apply (f_equal2 vadd); [|reflexivity]); (apply f_equal; apply (f_equal3 mkV); field). }
    assert (QX : it_q x = q). { unfold x. destruct right; cbn [nth arch_pier in_world it_q]; apply q_prod_id_r. }
    rewrite RX, QX in H1. split; [exact (H1 HQ)|]. exists m. split; [|exact H3]. 
    change (fst (create_box (width / 5) h depth)) with (boxV (width / 5) h depth) in H2. change (snd (create_box (width / 5) h depth)) with (boxT (width / 5) h depth) in H2. rewrite box_volume in H2. exact H2.
  - intros k Hk. assert (HkA : (k < Ar)%nat) by (unfold Ar; lia).
    set (x := arch_stone fresh r q width (width / 5) depth (height - width / 2) (2 * a) P k).
    assert (NX : nth_error ring k = Some x). { unfold ring. rewrite nth_error_map, seq_nth_error by auto. reflexivity. }
    assert (IX : In x (piers ++ ring)) by (apply in_or_app; right; eapply nth_error_In; exact NX).
    exists (it_name x). split. { rewrite nth_error_map, nth_error_app2 by (rewrite LP; lia). rewrite LP. fold P. replace (2 * P + k - P * 2)%nat with k by lia. rewrite NX. reflexivity. }
    destruct (HST x IX) as [H1 (m & H2 & H3)]. change (it_shape x) with (fresh (1 + 2 * P)%nat) in H1, H2. rewrite M1 in H1, H2.
    change (fst (wedge x0 x1 y0 y1 depth)) with (wedgeV x0 x1 y0 y1 depth) in H2. change (snd (wedge x0 x1 y0 y1 depth)) with (wedgeT x0 x1 y0 y1 depth) in H2. rewrite wedge_volume in H2.
    assert (Em : m = ring_volume width depth a). { rewrite <- WV. apply pos_clamp_val; [|exact H2]. apply CW. }
    split; [|rewrite <- Em; exact H3].
    assert (QX : it_q x = q_prod q (q_Rz ((2 * INR k + 1) * a))). { unfold x. cbn [arch_stone in_world it_q]. apply f_equal. apply f_equal. field. }
    assert (UX : is_unit (it_q x)) by (rewrite QX; apply q_prod_unit; [exact HQ|apply Rz_unit]).
    specialize (H1 UX). unfold x0, x1, y0, y1 in H1. rewrite <- mesh_wedge, mesh_shift in H1.
    assert (RX : it_r x = vadd (q_rotate (it_q x) (mkV (2 / 5 * width) 0 (depth / 2))) (at_pose r q (mkV 0 (height - width / 2) 0))).
    { rewrite QX. unfold x. cbn [arch_stone in_world it_r]. unfold at_pose. rewrite q_rotate_prod, q_rotate_add.
      replace (2 * a / 2 + INR k * (2 * a)) with ((2 * INR k + 1) * a) by field. replace (arch_r0 width (width / 5) depth) with (mkV (2 / 5 * width) 0 (depth / 2)) by (unfold arch_r0; apply (f_equal3 mkV); field).
      unfold vadd; cbn [vx vy vz]. apply (f_equal3 mkV); ring. }
    rewrite RX in H1. apply stands_shift in H1. rewrite QX in H1. rewrite <- (surjective_pairing (ring_stone _ _ _ _)) in H1. exact H1.
  - intros HSU (B1 & B2). apply HU; [exact HSU|lra|]. intros x Hx. apply in_app_or in Hx as [Hx|Hx].
    + rewrite (SP0 x Hx), M0. apply (box_counted (width / 5) h depth); auto. lra.
    + rewrite (SR0 x Hx), M1. apply (wedge_counted x0 x1 y0 y1 depth); auto.
Qed.

(** ** the points of the stones *)
Lemma ring_hull ri ro d a p : 0 < ri -> ri < ro -> 0 < d -> 0 < sin a -> 0 < cos a -> in_hull (fst (ring_stone ri ro d a)) p ->
  - d / 2 <= vz p <= d / 2 /\ ri * cos a <= vx p <= ro * cos a /\ Rabs (vy p) * cos a <= sin a * vx p.
Proof.
  intros Hi Ho Hd Hs Hc H. unfold ring_stone, create_cuboid in H. cbn [fst] in H.
  set (xi := ri * cos a) in *. set (xo := ro * cos a) in *. set (yi := ri * sin a) in *. set (yo := ro * sin a) in *.
  assert (E1 : sin a * xi = cos a * yi) by (unfold xi, yi; ring). assert (E2 : sin a * xo = cos a * yo) by (unfold xo, yo; ring).
  assert (E3 : xi < xo) by (unfold xi, xo; apply Rmult_lt_compat_r; auto).
  assert (P1 : 0 < cos a * yi) by (unfold yi; repeat apply Rmult_lt_0_compat; auto). assert (P2 : 0 < cos a * yo) by (unfold yo; repeat apply Rmult_lt_0_compat; lra).
  clearbody xi xo yi yo. set (s := sin a) in *. set (c := cos a) in *. clearbody s c.
  assert (G : forall n k, Forall (fun v => vdot n v <= k) [mkV xi (- yi) (d / 2); mkV xo (- yo) (d / 2); mkV xo yo (d / 2); mkV xi yi (d / 2);
    mkV xi (- yi) (- d / 2); mkV xo (- yo) (- d / 2); mkV xo yo (- d / 2); mkV xi yi (- d / 2)] -> vdot n p <= k).
  { intros n k F. apply H. rewrite Forall_forall in F. exact F. }
  destruct p as [x y z]. cbn [vx vy vz].
  assert (X1 := G (mkV 1 0 0) xo). assert (X2 := G (mkV (-1) 0 0) (- xi)). assert (Y1 := G (mkV (- s) c 0) 0). assert (Y2 := G (mkV (- s) (- c) 0) 0).
  assert (Z1 := G (mkV 0 0 1) (d / 2)). assert (Z2 := G (mkV 0 0 (-1)) (d / 2)). unfold vdot in *. cbn [vx vy vz] in *.
  specialize (X1 ltac:(repeat (apply Forall_cons; [cbn [vx vy vz]; lra|]); apply Forall_nil)). specialize (X2 ltac:(repeat (apply Forall_cons; [cbn [vx vy vz]; lra|]); apply Forall_nil)). specialize (Y1 ltac:(repeat (apply Forall_cons; [cbn [vx vy vz]; lra|]); apply Forall_nil)). specialize (Y2 ltac:(repeat (apply Forall_cons; [cbn [vx vy vz]; lra|]); apply Forall_nil)).
  specialize (Z1 ltac:(repeat (apply Forall_cons; [cbn [vx vy vz]; lra|]); apply Forall_nil)). specialize (Z2 ltac:(repeat (apply Forall_cons; [cbn [vx vy vz]; lra|]); apply Forall_nil)). split; [lra|]. split; [lra|].
  unfold Rabs. destruct (Rcase_abs y); lra.
Qed.
(** polar coordinates in a sector *)
Lemma sector_polar a u v : 0 < a -> a < PI / 2 -> 0 < u -> Rabs v * cos a <= sin a * u -> exists rho t, - a <= t <= a /\ u <= rho /\ rho * cos a <= u /\ u = rho * cos t /\ v = rho * sin t.
Proof.
  intros A0 A1 Hu Hv. pose proof PI_RGT_0 as PP. assert (CA : 0 < cos a) by (apply cos_gt_0; lra).
  set (t := atan (v / u)). destruct (atan_bound (v / u)) as [T0 T1]. fold t in T0, T1. assert (TP : tan t = v / u) by apply tan_atan. clearbody t.
  assert (TA : tan a = sin a / cos a) by reflexivity.
  assert (B : - tan a <= v / u <= tan a).
  { assert (B1 : Rabs v <= tan a * u). { apply (Rmult_le_reg_r (cos a)); auto. rewrite TA. replace (sin a / cos a * u * cos a) with (sin a * u) by (field; lra). exact Hv. }
    assert (B2 : v <= tan a * u) by (pose proof (Rle_abs v); lra). assert (B3 : - (tan a * u) <= v) by (pose proof (Rle_abs (- v)); rewrite Rabs_Ropp in *; lra).
    split; (apply (Rmult_le_reg_r u); [lra|]; replace (v / u * u) with v by (field; lra); lra). }
  assert (Q1 : t <= a). { destruct (Rle_lt_dec t a) as [L|L]; auto. exfalso. assert (tan a < tan t) by (apply tan_increasing; lra). lra. }
  assert (Q2 : - a <= t). { destruct (Rle_lt_dec (- a) t) as [L|L]; auto. exfalso. assert (tan t < tan (- a)) by (apply tan_increasing; lra). rewrite tan_neg in H. lra. }
  assert (C : 0 < cos t) by (apply cos_gt_0; lra). exists (u / cos t), t.
  assert (E : u / cos t * cos t = u) by (field; lra). assert (RP : 0 < u / cos t) by (apply Rdiv_lt_0_compat; auto).
  assert (CT : cos a <= cos t). { destruct (Rle_lt_dec 0 t) as [L|L]; [apply cos_decr_1; lra|]. rewrite <- (cos_neg t). apply cos_decr_1; lra. }
  split; [lra|]. split. { pose proof (COS_bound t). rewrite <- E at 1. rewrite <- (Rmult_1_r (u / cos t)) at 2. apply Rmult_le_compat_l; lra. }
  split. { rewrite <- E at 2. apply Rmult_le_compat_l; lra. }
  split; [lra|]. transitivity (u * tan t); [rewrite TP; field; lra|]. unfold tan. field. lra.
Qed.
Lemma polar_same r1 t1 r2 t2 : 0 < r1 -> 0 < r2 -> 0 <= t1 <= PI -> 0 <= t2 <= PI -> r1 * cos t1 = r2 * cos t2 -> r1 * sin t1 = r2 * sin t2 -> t1 = t2.
Proof.
  intros P1 P2 T1 T2 EC ES. assert (ER : r1 * r1 = r2 * r2).
  { pose proof (sin2_cos2 t1) as S1. pose proof (sin2_cos2 t2) as S2. unfold Rsqr in *. transitivity (r1 * cos t1 * (r1 * cos t1) + r1 * sin t1 * (r1 * sin t1)); [transitivity (r1 * r1 * (sin t1 * sin t1 + cos t1 * cos t1)); [rewrite S1; ring|ring]|].
    rewrite EC, ES. transitivity (r2 * r2 * (sin t2 * sin t2 + cos t2 * cos t2)); [ring|rewrite S2; ring]. }
  assert (E : r1 = r2) by nra. subst r2. assert (C : cos t1 = cos t2) by (apply (Rmult_eq_reg_l r1); lra).
  destruct (Rtotal_order t1 t2) as [L|[L|L]]; auto; exfalso; [assert (cos t2 < cos t1)|assert (cos t1 < cos t2)]; try lra; apply cos_decreasing_1; lra.
Qed.

(** the point p of the world, in the frame of the arch *)
Definition in_arch (r : vec3) (q : quat) (p : vec3) : vec3 := q_rotate (q_conj q) (vsub p r).
Lemma abs_between x y : Rabs x <= y -> - y <= x <= y.
Proof. intros H. pose proof (Rle_abs x). pose proof (Rle_abs (- x)). rewrite Rabs_Ropp in *. lra. Qed.
Theorem C146_apart eig sd e fresh r q width height depth ps ars density mat e' names : eig_diagonal eig -> reach eig sd sane_params e -> (2 <= p_resolution (e_params e))%Z ->
  new_names e fresh -> exist_material (e_lib e) mat = true -> is_unit q -> clear_arch width depth (PI / (2 * IZR ars)) ->
  create_arch eig sd fresh r q width height depth ps ars density mat e = (Done e', names) ->
  let top := height - width / 2 in let h := top / IZR ps in let delta := PI / IZR ars in
  let pier (right : bool) k n := (Z.of_nat k < ps)%Z /\ nth_error names (2 * k + if right then 1 else 0) = Some n in
  let ring k n := (Z.of_nat k < ars)%Z /\ nth_error names (2 * Z.to_nat ps + k) = Some n in
  (* where the stones are *)
  (forall right k n p, pier right k n -> occupies e' n p -> let x := in_arch r q p in
     Rabs (vx x - (if right then 2 / 5 else - (2 / 5)) * width) <= width / 10 /\ INR k * h <= vy x <= INR (S k) * h /\ Rabs (vz x) <= depth / 2) /\
  (forall k n p, ring k n -> occupies e' n p -> let x := in_arch r q p in
     Rabs (vz x) <= depth / 2 /\ exists rho t, 3 / 10 * width * cos (delta / 2) <= rho <= width / 2 /\ INR k * delta <= t <= INR (S k) * delta /\ vx x = rho * cos t /\ vy x = top + rho * sin t) /\
  (* two stones of the piers share at most the joint between two neighbours *)
  (forall right1 k1 n1 right2 k2 n2 p, pier right1 k1 n1 -> pier right2 k2 n2 -> n1 <> n2 -> occupies e' n1 p -> occupies e' n2 p ->
     right1 = right2 /\ (k2 = S k1 \/ k1 = S k2) /\ vy (in_arch r q p) = INR (Nat.max k1 k2) * h) /\
  (* a stone of a pier and a stone of the ring: the top stone of the right pier with the first one of the ring, of the left pier with the last one, at the top of the pier *)
  (forall right k n l m p, pier right k n -> ring l m -> occupies e' n p -> occupies e' m p ->
     Z.of_nat (S k) = ps /\ (if right then l = O else Z.of_nat (S l) = ars) /\ vy (in_arch r q p) = top) /\
  (* two stones of the ring share at most points of the plane between two neighbours *)
  (forall k n l m p, ring k n -> ring l m -> (k < l)%nat -> occupies e' n p -> occupies e' m p ->
     l = S k /\ vx (in_arch r q p) * sin (INR l * delta) = (vy (in_arch r q p) - top) * cos (INR l * delta)).
Proof.
  intros HE HR HN HF HM HQ HC H top h delta pier ring.
  assert (HA : arch_arguments width height depth ps ars density).
  { apply rejects_false. destruct (arch_rejects _ _ _ _ _ _) eqn:E; auto. unfold create_arch in H. rewrite E in H. discriminate. }
  destruct (C146_arch eig sd e fresh r q width height depth ps ars density mat HE HR HN HF HM HQ HA HC) as (e1 & ns & E & _ & _ & _ & LN & ND & _ & HP & HG & _).
  rewrite E in H. assert (e1 = e') by congruence. assert (ns = names) by congruence. subst e1 ns. clear H E. fold top in HP, HG. fold h in HP.
  destruct HA as (Hw & Hh & Hd & Hp & Har & _ & _). destruct (half_turn ars Har) as (A0 & A1 & A2 & A3). set (a := PI / (2 * IZR ars)) in *.
  destruct (trig_pos a A0 A1) as [SP CP]. assert (ED : delta = 2 * a) by exact A3. pose proof PI_RGT_0 as PP.
  assert (Ph : 0 < h). { apply Rdiv_lt_0_compat; [unfold top; lra|]. apply (IZR_lt 0). lia. }
  assert (Eh : IZR ps * h = top). { unfold h. field. apply not_0_IZR. lia. }
  assert (FR : forall y c ql, vsub (at_pose (at_pose r q c) (q_prod q ql) y) r = q_rotate q (vadd (q_rotate ql y) c)).
  { intros y c ql. unfold at_pose. rewrite q_rotate_prod, q_rotate_add. unfold vsub, vadd. cbn [vx vy vz]. apply (f_equal3 mkV); ring. }
  assert (INP : forall right k n p, pier right k n -> occupies e' n p -> let x := in_arch r q p in
     Rabs (vx x - (if right then 2 / 5 else - (2 / 5)) * width) <= width / 10 /\ INR k * h <= vy x <= INR (S k) * h /\ Rabs (vz x) <= depth / 2).
  { intros right k n p [Hk Hn] HO x. destruct (HP right k Hk) as (n' & Hn' & St & _). rewrite Hn in Hn'. apply some_eq in Hn'. subst n'.
    destruct (stands_inside _ _ _ _ _ _ HQ St HO) as (y & Ep & Hy). apply box_hull in Hy; try lra. destruct Hy as (Y1 & Y2 & Y3).
    assert (EX : x = vadd y (mkV ((if right then 2 / 5 else - (2 / 5)) * width) ((INR k + 1 / 2) * h) 0)).
    { unfold x, in_arch. rewrite Ep. pose proof (FR y (mkV ((if right then 2 / 5 else - (2 / 5)) * width) ((INR k + 1 / 2) * h) 0) q_identity) as F. rewrite q_prod_id_r, q_rotate_id in F. rewrite F. apply q_rotate_inv_l. exact HQ. }
    rewrite EX. unfold vadd. cbn [vx vy vz]. rewrite S_INR. split; [|split; [lra|]]; apply Rabs_le; lra. }
  assert (ING : forall k n p, ring k n -> occupies e' n p -> let x := in_arch r q p in
     Rabs (vz x) <= depth / 2 /\ exists rho t, 3 / 10 * width * cos (delta / 2) <= rho <= width / 2 /\ INR k * delta <= t <= INR (S k) * delta /\ vx x = rho * cos t /\ vy x = top + rho * sin t).
  { intros k n p [Hk Hn] HO x. destruct (HG k Hk) as (n' & Hn' & St & _). rewrite Hn in Hn'. apply some_eq in Hn'. subst n'.
    assert (UQ : is_unit (q_prod q (q_Rz ((2 * INR k + 1) * a)))) by (apply q_prod_unit; [exact HQ|apply Rz_unit]).
    destruct (stands_inside _ _ _ _ _ _ UQ St HO) as (y & Ep & Hy). apply ring_hull in Hy; try lra. destruct Hy as (Y1 & Y2 & Y3).
    assert (EX : x = vadd (q_rotate (q_Rz ((2 * INR k + 1) * a)) y) (mkV 0 top 0)). { unfold x, in_arch. rewrite Ep, FR. apply q_rotate_inv_l. exact HQ. }
    assert (U : 0 < vx y). { assert (0 < 3 / 10 * width * cos a) by (repeat apply Rmult_lt_0_compat; lra). lra. }
    destruct (sector_polar a (vx y) (vy y) A0 ltac:(lra) U Y3) as (rho & t & T1 & R1 & R2 & E1 & E2).
    rewrite EX, Rz_rotate. unfold vadd. cbn [vx vy vz]. split; [apply Rabs_le; lra|]. exists rho, ((2 * INR k + 1) * a + t).
    replace (delta / 2) with a by (rewrite ED; field). split; [|split; [rewrite S_INR, ED; lra|]].
    - split; [lra|]. apply (Rmult_le_reg_r (cos a)); lra.
    - rewrite E1, E2, cos_plus, sin_plus. split; ring. }
  split; [exact INP|]. split; [exact ING|].
  assert (KP : forall k, (Z.of_nat k < ps)%Z -> INR (S k) * h <= top). { intros k Hk. rewrite <- Eh. apply Rmult_le_compat_r; [lra|]. rewrite INR_IZR_INZ. apply IZR_le. lia. }
  assert (KR : forall k, (Z.of_nat k < ars)%Z -> 0 <= INR k * delta /\ INR (S k) * delta <= PI).
  { intros k Hk. split; [apply Rmult_le_pos; [apply pos_INR|lra]|]. rewrite <- A2, <- ED. apply Rmult_le_compat_r; [lra|]. rewrite INR_IZR_INZ. apply IZR_le. lia. }
  assert (RP : forall rho, 3 / 10 * width * cos (delta / 2) <= rho -> 0 < rho). { intros rho Hr. replace (delta / 2) with a in Hr by (rewrite ED; field). assert (0 < 3 / 10 * width * cos a) by (repeat apply Rmult_lt_0_compat; lra). lra. }
  assert (RM : forall i j, INR i * delta <= INR j * delta -> (i <= j)%nat). { intros i j L. apply INR_le. apply (Rmult_le_reg_r delta); lra. }
  split; [|split].
  - intros right1 k1 n1 right2 k2 n2 p H1 H2 NE O1 O2. destruct (INP _ _ _ _ H1 O1) as (X1 & Y1 & _). destruct (INP _ _ _ _ H2 O2) as (X2 & Y2 & _). set (x := in_arch r q p) in *.
    assert (E : right1 = right2). { destruct right1, right2; auto; exfalso; apply abs_between in X1, X2; lra. } subst right2. split; [reflexivity|].
    assert (NK : k1 <> k2). { intros ->. destruct H1 as [_ H1], H2 as [_ H2]. apply NE. congruence. }
    assert (MON : forall i j, (S i < j)%nat -> INR (S i) * h < INR j * h). { intros i j Hij. apply Rmult_lt_compat_r; auto. apply lt_INR. lia. }
    destruct (Nat.lt_total k1 k2) as [L|[L|L]]; [|contradiction|].
    + destruct (Nat.eq_dec k2 (S k1)) as [->|NS]. 2:{ pose proof (MON k1 k2 ltac:(lia)). lra. } split; [left; reflexivity|]. rewrite Nat.max_r by lia. lra.
    + destruct (Nat.eq_dec k1 (S k2)) as [->|NS]. 2:{ pose proof (MON k2 k1 ltac:(lia)). lra. } split; [right; reflexivity|]. rewrite Nat.max_l by lia. lra.
  - intros right k n l m p H1 H2 O1 O2. destruct (INP _ _ _ _ H1 O1) as (X1 & Y1 & _). destruct (ING _ _ _ H2 O2) as (_ & rho & t & Q1 & Q2 & Q3 & Q4). set (x := in_arch r q p) in *.
    pose proof (KP k (proj1 H1)) as K1. destruct (KR l (proj1 H2)) as [K2 K3]. pose proof (RP rho (proj1 Q1)) as P1.
    assert (S0 : 0 <= sin t) by (apply sin_ge_0; lra). assert (S1 : 0 <= rho * sin t) by (apply Rmult_le_pos; lra).
    assert (S2 : rho * sin t = 0) by lra. assert (S3 : sin t = 0) by (apply (Rmult_eq_reg_l rho); lra).
    split; [|split; [|lra]].
    + assert (Z : ~ (Z.of_nat (S k) < ps)%Z). { intros Z. pose proof (KP (S k) Z) as K4. rewrite S_INR in K4. assert (INR (S k) * h + h <= top) by lra. lra. } destruct H1 as [H1 _]. lia.
    + apply abs_between in X1. destruct right.
      * assert (C0 : 0 < cos t). { apply (Rmult_lt_reg_l rho); lra. }
        assert (T0 : t = 0). { apply cos_inj; [lra|lra|]. rewrite cos_0. pose proof (sin2_cos2 t) as SC. unfold Rsqr in SC. rewrite S3 in SC. nra. }
        rewrite T0 in Q2. assert (LE : (l <= 0)%nat) by (apply RM; change (INR 0) with 0; lra). lia.
      * assert (C0 : cos t < 0). { apply (Rmult_lt_reg_l rho); lra. }
        assert (T0 : t = PI). { apply cos_inj; [lra|lra|]. rewrite cos_PI. pose proof (sin2_cos2 t) as SC. unfold Rsqr in SC. rewrite S3 in SC. nra. }
        rewrite T0 in Q2. assert (LE : IZR ars <= IZR (Z.of_nat (S l))). { apply (Rmult_le_reg_r delta); [lra|]. rewrite <- INR_IZR_INZ. rewrite ED in *. lra. } apply le_IZR in LE. destruct H2 as [H2 _]. lia.
  - intros k n l m p H1 H2 L O1 O2. destruct (ING _ _ _ H1 O1) as (_ & r1 & t1 & Q1 & Q2 & Q3 & Q4). destruct (ING _ _ _ H2 O2) as (_ & r2 & t2 & V1 & V2 & V3 & V4). set (x := in_arch r q p) in *.
    destruct (KR k (proj1 H1)) as [K2 K3]. destruct (KR l (proj1 H2)) as [K4 K5]. pose proof (RP r1 (proj1 Q1)) as P1. pose proof (RP r2 (proj1 V1)) as P2.
    assert (ET : t1 = t2) by (apply (polar_same r1 t1 r2 t2); lra). subst t2.
    assert (LS : (l <= S k)%nat) by (apply RM; lra). assert (El : l = S k) by lia. split; [exact El|]. subst l. assert (T : t1 = INR (S k) * delta) by lra. rewrite <- T, Q3, Q4. ring.
Qed.
(** the arch can be simulated *)
Theorem C146_simulates eig sd e fresh r q width height depth ps ars density mat e' names time : eig_diagonal eig -> reach eig sd sane_params e -> (2 <= p_resolution (e_params e))%Z ->
  new_names e fresh -> exist_material (e_lib e) mat = true -> is_unit q -> clear_arch width depth (PI / (2 * IZR ars)) ->
  set_up e -> big_arch width ((height - width / 2) / IZR ps) depth (PI / (2 * IZR ars)) -> 0 < time -> 0 < p_time_step (e_params e) ->
  create_arch eig sd fresh r q width height depth ps ars density mat e = (Done e', names) ->
  exists e2 dts, lsum dts = time /\ exists n, forall fuel, (n <= fuel)%nat -> simulate fuel time e' = SimDone e2 dts.
Proof.
  intros HE HR HN HF HM HQ HC HU HB HT HTS H.
  assert (HA : arch_arguments width height depth ps ars density).
  { apply rejects_false. destruct (arch_rejects _ _ _ _ _ _) eqn:E; auto. unfold create_arch in H. rewrite E in H. discriminate. }
  destruct (C146_arch eig sd e fresh r q width height depth ps ars density mat HE HR HN HF HM HQ HA HC) as (e1 & ns & E & R1 & HAd & _ & _ & _ & _ & _ & _ & U).
  rewrite E in H. assert (e1 = e') by congruence. subst e1. destruct HAd as (_ & _ & _ & _ & _ & _ & EP & _).
  destruct (C84_simulate eig sd e' time R1 (U HU HB) HT) as (e2 & dts & K1 & _ & K2); [rewrite EP; exact HTS|]. exists e2, dts. auto.
Qed.
(** piers of two stones each and a ring of three stones, in a new engine *)
Example C146_nonvacuous sd : reach diag_eig sd sane_params create_engine /\ (2 <= p_resolution (e_params create_engine))%Z /\ exist_material (e_lib create_engine) default_name = true /\
  eig_diagonal diag_eig /\ new_names create_engine numbered /\ set_up create_engine /\ arch_arguments 5 4 1 2 3 1 /\ clear_arch 5 1 (PI / (2 * IZR 3)) /\ big_arch 5 ((4 - 5 / 2) / IZR 2) 1 (PI / (2 * IZR 3)) /\
  exists e' names, create_arch diag_eig sd numbered vzero q_identity 5 4 1 2 3 1 default_name create_engine = (Done e', names) /\ length names = 7%nat /\
    nth_error names 3 = Some [4]%nat /\ at_rest e' [4]%nat false default_name (3 / 4) /\ stands e' [4]%nat (create_box 1 (3 / 4) 1) (mkV 2 (9 / 8) 0) q_identity /\
    nth_error names 5 = Some [7]%nat /\ at_rest e' [7]%nat false default_name (sqrt 3) /\ stands e' [7]%nat (ring_stone (3 / 2) (5 / 2) 1 (PI / 6)) (mkV 0 (3 / 2) 0) (q_Rz (PI / 2)).
Proof.
  assert (R0 : reach diag_eig sd sane_params create_engine). { apply reach_new. split; [reflexivity|]. cbn. split; [lia|lra]. }
  assert (HM : exist_material (e_lib create_engine) default_name = true) by reflexivity.
  assert (HP : (2 <= p_resolution (e_params create_engine))%Z) by (cbn; lia).
  assert (UQ : is_unit q_identity) by (unfold is_unit, q_identity, qdot; cbn; ring).
  assert (EA : PI / (2 * IZR 3) = PI / 6) by field. assert (EH : (4 - 5 / 2) / IZR 2 = 3 / 4) by field.
  assert (Q3 : sqrt 3 * sqrt 3 = 3) by (apply sqrt_sqrt; lra). assert (Q0 : 0 <= sqrt 3) by apply sqrt_pos.
  assert (QL : 17 / 10 < sqrt 3) by nra. assert (QU : sqrt 3 < 174 / 100) by nra.
  assert (AA : arch_arguments 5 4 1 2 3 1) by (split; [lra|split; [lra|split; [lra|split; [lia|split; [lia|split; [exists 1%Z; reflexivity|lra]]]]]]).
  assert (RV : ring_volume 5 1 (PI / 6) = sqrt 3) by (unfold ring_volume; rewrite sin_PI6, cos_PI6; field).
  assert (RO : ring_offset 5 (PI / 6) = 49 / 48 * sqrt 3 - 2) by (unfold ring_offset; rewrite cos_PI6; field).
  assert (CA : clear_arch 5 1 (PI / 6)).
  { unfold clear_arch. rewrite RV, RO. unfold tiny. split; [lra|]. split; [|lra]. right. rewrite Rabs_left; lra. }
  split; [exact R0|]. split; [exact HP|]. split; [exact HM|]. split; [exact diag_eig_diagonal|]. split; [exact numbered_new|].
  split; [split; [|split]; cbn; tauto|]. split; [exact AA|]. rewrite EA, EH. split; [exact CA|]. split.
  { split; [unfold big_box, tiny; repeat split; lra|]. split; [apply clear_wedge_arch; [lra|rewrite sin_PI6; lra|rewrite cos_PI6; lra|exact CA]|].
    destruct (wedge_facts 5 1 (PI / 6)) as (_ & _ & _ & EV & _); [lra|rewrite sin_PI6; lra|rewrite cos_PI6; lra|]. rewrite EV, RV. rewrite !cos_PI6, !sin_PI6. unfold wedge_sq, tiny.
    set (x0 := 3 / 10 * 5 * (sqrt 3 / 2) - 2 / 5 * 5). set (x1 := 1 / 2 * 5 * (sqrt 3 / 2) - 2 / 5 * 5). clearbody x0 x1.
    set (s0 := (x0 * x0 * _ + _ + _) / _). assert (S0 : 0 <= s0). { replace s0 with ((7 / 2 * (x0 * x0) + 4 * (x0 * x1) + 9 / 2 * (x1 * x1)) / 12) by (unfold s0; field). nra. } clearbody s0.
    assert (T : forall u, 1 / 3 <= u -> 1 / 10000000000 < sqrt 3 * u) by (intros u Hu; nra). split; [apply T; lra|]. split; apply T; lra. }
  pose proof CA as CA'. rewrite <- EA in CA'.
  destruct (C146_arch diag_eig sd create_engine numbered vzero q_identity 5 4 1 2 3 1 default_name diag_eig_diagonal R0 HP numbered_new HM UQ AA CA') as (e' & names & E & _ & _ & _ & LN & _ & _ & HPi & HRi & _).
  exists e', names. split; [exact E|]. split; [lia|]. rewrite EA in HRi. rewrite EH in HPi.
  assert (EN : names = map numbered [1; 2; 3; 4; 6; 7; 8]%nat).
  { apply (f_equal snd) in E. cbn [snd] in E. rewrite <- E. unfold create_arch. rewrite (proj2 (rejects_false 5 4 1 2 3 1) AA). reflexivity. }
  destruct (HPi true 1%nat ltac:(lia)) as (n & Hn & HSt & m & Hm & HA). destruct (HRi 1%nat ltac:(lia)) as (n' & Hn' & HSt' & HA').
  assert (n = [4]%nat). { rewrite EN in Hn. cbv [numbered map Nat.mul Nat.add nth_error] in Hn. apply some_eq in Hn. symmetry. exact Hn. } subst n.
  assert (n' = [7]%nat). { rewrite EN in Hn'. change (2 * Z.to_nat 2 + 1)%nat with 5%nat in Hn'. cbv [numbered map nth_error] in Hn'. apply some_eq in Hn'. symmetry. exact Hn'. } subst n'.
  split; [exact Hn|]. split.
  { apply pos_clamp_val in Hm; [|unfold tiny; lra]. replace (3 / 4) with (m * 1) by (rewrite Hm; field). exact HA. }
  split.
  { replace (mkV 2 (9 / 8) 0) with (at_pose vzero q_identity (mkV (2 / 5 * 5) ((INR 1 + 1 / 2) * (3 / 4)) 0)); [replace (create_box 1 (3 / 4) 1) with (create_box (5 / 5) (3 / 4) 1) by (replace (5 / 5) with 1 by field; reflexivity); exact HSt|].
    unfold at_pose. rewrite q_rotate_id. unfold vadd, vzero. cbn [vx vy vz INR]. apply (f_equal3 mkV); field. }
  split; [exact Hn'|]. split; [replace (sqrt 3) with (ring_volume 5 1 (PI / 6) * 1) by (rewrite RV; ring); exact HA'|].
  replace (3 / 10 * 5) with (3 / 2) in HSt' by field. replace (1 / 2 * 5) with (5 / 2) in HSt' by field. rewrite q_prod_id_l in HSt'. replace ((2 * INR 1 + 1) * (PI / 6)) with (PI / 2) in HSt' by (cbn [INR]; field).
  replace (mkV 0 (3 / 2) 0) with (at_pose vzero q_identity (mkV 0 (4 - 5 / 2) 0)); [exact HSt'|]. unfold at_pose. rewrite q_rotate_id. unfold vadd, vzero. cbn [vx vy vz]. apply (f_equal3 mkV); field.
Qed.
Print Assumptions C146_rejects.
Print Assumptions C146_arch.
Print Assumptions C146_apart.
Print Assumptions C146_simulates.
