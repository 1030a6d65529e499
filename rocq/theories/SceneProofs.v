(** Lemmas about sequences of calls, for the scene builders. *)
From Verif Require Import Base QuatModel QuatProofs VecModel VecProofs BvhModel BvhSpec GridModel VolModel RigidTypes RigidSpec CollModel BaryModel MassModel MassSpec
  StepModel StepProofs StepProofs2 ReadySpec ReadyProofs ConSpec ApiModel ApiSpec ApiProofs RotProofs QuatMatProofs KdopProofs GridProofs MassProofs MassProofs2 Prop_Geometry Prop_Grid Prop_Step Prop_Mass Prop_Api Prop_Api2
  SurfModel SurfSpec SceneModel SceneSpec.
From Coq Require Import Permutation.
Open Scope R_scope.

(** ** bodies at the end of the list *)
Lemma find_app_l {A} (nm : A -> name) l l' n a : find (fun a => name_eqb (nm a) n) l = Some a -> find (fun a => name_eqb (nm a) n) (l ++ l') = Some a.
Proof. induction l as [|x l IH]; cbn; [discriminate|]. destruct (name_eqb (nm x) n); auto. Qed.
Lemma find_app_r {A} (nm : A -> name) l l' n : ~ In n (map nm l) -> find (fun a => name_eqb (nm a) n) (l ++ l') = find (fun a => name_eqb (nm a) n) l'.
Proof. intros H. induction l as [|x l IH]; cbn in *; auto. rewrite name_eqb_neq by tauto. apply IH. tauto. Qed.
Lemma find_mid l1 (b : body) l2 n : ~ In n (map b_name l1) -> b_name b = n -> find (fun a => name_eqb (b_name a) n) (l1 ++ b :: l2) = Some b.
Proof. intros H <-. rewrite (find_app_r b_name) by auto. cbn. rewrite name_eqb_refl. reflexivity. Qed.
Lemma map_upd_mid l1 (b : body) l2 n f : ~ In n (map b_name l1) -> ~ In n (map b_name l2) -> b_name b = n ->
  map (fun x => if name_eqb (b_name x) n then f x else x) (l1 ++ b :: l2) = l1 ++ f b :: l2.
Proof.
  intros H1 H2 <-. rewrite map_app. cbn. rewrite name_eqb_refl.
  assert (G : forall l, ~ In (b_name b) (map b_name l) -> map (fun x => if name_eqb (b_name x) (b_name b) then f x else x) l = l).
  { induction l as [|x l IH]; cbn; auto. intros H. rewrite name_eqb_neq by tauto. f_equal. apply IH. tauto. }
  rewrite !G by auto. reflexivity.
Qed.
Definition has_mid (e : engine) l1 b l2 n : Prop := e_bodies e = l1 ++ b :: l2 /\ ~ In n (map b_name l1) /\ ~ In n (map b_name l2) /\ b_name b = n.
Lemma upd_mid e l1 b l2 n f : has_mid e l1 b l2 n -> upd_body e n f = set_bodies e (l1 ++ f b :: l2).
Proof. intros (E & H1 & H2 & H3). unfold upd_body. rewrite E, map_upd_mid by auto. reflexivity. Qed.
Lemma found_mid e l1 b l2 n : has_mid e l1 b l2 n -> find_body e n = Some b.
Proof. intros (E & H1 & H2 & H3). unfold find_body. rewrite E. apply find_mid; auto. Qed.
Lemma keep_mid e l1 b l2 n b' : has_mid e l1 b l2 n -> b_name b' = b_name b -> has_mid (set_bodies e (l1 ++ b' :: l2)) l1 b' l2 n.
Proof. intros (E & H1 & H2 & H3) H. split; [reflexivity|]. split; [auto|]. split; [auto|]. congruence. Qed.
Lemma set_bodies_twice e a b : set_bodies (set_bodies e a) b = set_bodies e b.
Proof. reflexivity. Qed.

(** a stone as [place] leaves it, and as [finish] leaves it *)
Definition stone (s : shape) (t : tree) (i : nat) (bn : name) (r : vec3) (q : quat) : body :=
  mkBody bn i (q_prod (q_unit q) (sh_q s)) (vadd (q_rotate (q_unit q) (sh_r s)) r) vzero vzero 0 vzero (Some s) false [] default_name (Some t).
Definition finished (s : shape) (fx : bool) (mat : name) (density : R) (b : body) : body :=
  with_mass (with_material (with_fixed b fx) mat) (sh_mass s * density) (vscale density (sh_inertia s)).

Lemma place_ok eig sd e bn sn r q s : reach eig sd sane_params e -> find_body e bn = None -> find_shape e sn = Some s ->
  exists t, place bn sn r q e = Done (set_bodies e (e_bodies e ++ [stone s t (length (e_bodies e)) bn r q])).
Proof.
  intros HR HB HS. unfold place, create_rigid_body. rewrite HB. cbn [andthen].
  set (e1 := set_bodies e (e_bodies e ++ [body_init bn (length (e_bodies e))])).
  assert (R1 : reach eig sd sane_params e1). { apply (reach_done _ _ _ (CreateBody bn) e); [auto|exact I|]. cbn. unfold create_rigid_body. rewrite HB. reflexivity. }
  assert (M1 : has_mid e1 (e_bodies e) (body_init bn (length (e_bodies e))) [] bn). { split; [reflexivity|]. split; [|split; [auto|reflexivity]]. apply (find_none b_name). exact HB. }
  destruct (connect_shape_cases e1 bn sn (reach_made _ _ _ R1)) as [(b & s' & t & Hb & Hs & EC & _)|EC].
  2:{ exfalso. destruct (C83_connect_shape_partial _ _ _ _ _ _ R1 EC) as [_ [N|N]]; apply N.
      - cbn. rewrite map_app, in_app_iff. right. left. reflexivity.
      - apply (find_some sh_name) in HS as [H1 H2]. rewrite <- H2. apply in_map. exact H1. }
  assert (s' = s). { change (find_shape e sn = Some s') in Hs. congruence. } subst s'. rewrite EC. cbn [andthen].
  rewrite (upd_mid _ _ _ _ _ _ M1). unfold e1. rewrite set_bodies_twice.
  set (b2 := with_shape (body_init bn (length (e_bodies e))) s (Some t)).
  pose proof (keep_mid _ _ _ _ _ b2 M1 eq_refl) as M2. unfold e1 in M2. rewrite set_bodies_twice in M2. clear R1 M1 EC Hb Hs.
  unfold set_position. rewrite (found_mid _ _ _ _ _ M2). cbn [b_shape b2 with_shape]. cbn [andthen]. rewrite (upd_mid _ _ _ _ _ _ M2), set_bodies_twice.
  match goal with |- context [with_pose ?b0 ?r0 ?q0] => set (b3 := with_pose b0 r0 q0) end.
  pose proof (keep_mid _ _ _ _ _ b3 M2 eq_refl) as M3. rewrite set_bodies_twice in M3.
  unfold set_orientation. rewrite (found_mid _ _ _ _ _ M3). cbn [b_shape b3 b2 with_shape with_pose]. rewrite (upd_mid _ _ _ _ _ _ M3), set_bodies_twice.
  exists t. do 4 f_equal. unfold stone, b3, b2, with_pose, with_shape, body_init; cbn [b_name b_idx b_v b_w b_mass b_inertia b_shape b_fixed b_forces b_material b_bvh b_r b_q].
  f_equal. f_equal. match goal with |- vsub (vadd ?a r) ?a = r => generalize a end. clear. intros [a0 a1 a2]. destruct r. unfold vsub, vadd; cbn. f_equal; ring.
Qed.
Lemma andthen_done o k e' : andthen o k = Done e' -> exists e, o = Done e /\ k e = Done e'.
Proof. destruct o; cbn; intros H; try discriminate. eauto. Qed.
Lemma place_reach eig sd ok e bn sn r q e' : reach eig sd ok e -> place bn sn r q e = Done e' -> reach eig sd ok e'.
Proof.
  intros HR H. unfold place in H. apply andthen_done in H as (e1 & H1 & H). apply andthen_done in H as (e2 & H2 & H). apply andthen_done in H as (e3 & H3 & H).
  apply (reach_done _ _ _ (SetOrientation bn q true) e3); [|exact I|exact H]. apply (reach_done _ _ _ (SetPosition bn r true) e2); [|exact I|exact H3].
  apply (reach_done _ _ _ (ConnectShape bn sn) e1); [|exact I|exact H2]. apply (reach_done _ _ _ (CreateBody bn) e); [auto|exact I|exact H1].
Qed.
Lemma finish_reach eig sd ok e bn ty mat density e' : reach eig sd ok e -> finish bn ty mat density e = Done e' -> reach eig sd ok e'.
Proof.
  intros HR H. unfold finish in H. apply andthen_done in H as (e1 & H1 & H). apply andthen_done in H as (e2 & H2 & H).
  apply (reach_done _ _ _ (SetMass bn density) e2); [|exact I|exact H]. apply (reach_done _ _ _ (SetMaterial bn mat) e1); [|exact I|exact H2].
  apply (reach_done _ _ _ (SetType bn ty) e); [auto|exact I|exact H1].
Qed.
Lemma each_reach {A} eig sd ok (f : A -> engine -> outcome) : (forall a e e', reach eig sd ok e -> f a e = Done e' -> reach eig sd ok e') ->
  forall l e e', reach eig sd ok e -> each f l e = Done e' -> reach eig sd ok e'.
Proof.
  intros Hf. induction l as [|a l IH]; intros e e' HR H; cbn in H; [apply done_eq in H; subst; auto|].
  apply andthen_done in H as (e1 & H1 & H). eapply IH; [eapply Hf; [exact HR|exact H1]|exact H].
Qed.
(** the name of a body type, and what it means *)
Definition type_name (fx : bool) : name := if fx then fixed_name else free_name.
Lemma set_type_mid e l1 b l2 n (fx : bool) : has_mid e l1 b l2 n -> set_body_type e n (type_name fx) = Done (set_bodies e (l1 ++ with_fixed b fx :: l2)).
Proof. intros H. unfold set_body_type. rewrite (found_mid _ _ _ _ _ H). rewrite !(upd_mid _ _ _ _ _ _ H). destruct fx; reflexivity. Qed.
Lemma finish_ok e l1 b l2 n (fx : bool) mat density s : has_mid e l1 b l2 n -> b_shape b = Some s -> exist_material (e_lib e) mat = true ->
  finish n (type_name fx) mat density e = Done (set_bodies e (l1 ++ finished s fx mat density b :: l2)).
Proof.
  intros H HS HM. unfold finish. rewrite (set_type_mid _ _ _ _ _ fx H). cbn [andthen].
  pose proof (keep_mid _ _ _ _ _ (with_fixed b fx) H eq_refl) as H1.
  unfold set_body_material. rewrite (found_mid _ _ _ _ _ H1). cbn [e_lib set_bodies]. rewrite HM. cbn [andthen]. rewrite (upd_mid _ _ _ _ _ _ H1), set_bodies_twice.
  pose proof (keep_mid _ _ _ _ _ (with_material (with_fixed b fx) mat) H1 eq_refl) as H2. rewrite set_bodies_twice in H2.
  unfold set_mass_properties. rewrite (found_mid _ _ _ _ _ H2). cbn [b_shape with_material with_fixed]. rewrite HS. rewrite (upd_mid _ _ _ _ _ _ H2), set_bodies_twice. reflexivity.
Qed.

(** ** loops *)
(** stones placed and finished one by one, all with the shape sn *)
Definition one_stone (sn : name) (mat : name) (density : R) (x : name * vec3 * quat) (e : engine) : outcome :=
  let '(bn, r, q) := x in andthen (place bn sn r q e) (finish bn free_name mat density).
Definition nm3 (x : name * vec3 * quat) : name := let '(bn, _, _) := x in bn.
Definition is_stone (s : shape) (mat : name) (density : R) (x : name * vec3 * quat) (b : body) : Prop :=
  let '(bn, r, q) := x in exists t i, b = finished s false mat density (stone s t i bn r q).
Lemma set_bodies_self e : set_bodies e (e_bodies e) = e.
Proof. destruct e; reflexivity. Qed.
Lemma one_by_one eig sd sn s mat density : forall l e, reach eig sd sane_params e -> find_shape e sn = Some s -> exist_material (e_lib e) mat = true ->
  NoDup (map nm3 l) -> (forall x, In x l -> ~ In (nm3 x) (map b_name (e_bodies e))) ->
  exists bs, each (one_stone sn mat density) l e = Done (set_bodies e (e_bodies e ++ bs)) /\ Forall2 (is_stone s mat density) l bs /\
    reach eig sd sane_params (set_bodies e (e_bodies e ++ bs)).
Proof.
  induction l as [|[[bn r] q] l IH]; intros e HR HS HM ND NI.
  - exists []. rewrite app_nil_r, set_bodies_self. split; [reflexivity|]. split; [constructor|auto].
  - cbn [each one_stone]. assert (HB : find_body e bn = None). { apply (find_none b_name). apply (NI (bn, r, q)). left; reflexivity. }
    destruct (place_ok eig sd e bn sn r q s HR HB HS) as (t & EP). rewrite EP. cbn [andthen].
    set (b := stone s t (length (e_bodies e)) bn r q) in *. set (e1 := set_bodies e (e_bodies e ++ [b])) in *.
    assert (M1 : has_mid e1 (e_bodies e) b [] bn). { split; [reflexivity|]. split; [apply (NI (bn, r, q)); left; reflexivity|]. split; [auto|reflexivity]. }
    pose proof (finish_ok e1 _ _ _ _ false mat density s M1 eq_refl HM) as EF. cbn [type_name] in EF. rewrite EF. cbn [andthen].
    unfold e1. rewrite set_bodies_twice. set (b' := finished s false mat density b) in *.
    assert (R1 : reach eig sd sane_params e1) by (eapply place_reach; [exact HR|exact EP]).
    assert (R2 : reach eig sd sane_params (set_bodies e (e_bodies e ++ [b']))). { eapply finish_reach; [exact R1|exact EF]. }
    destruct (IH (set_bodies e (e_bodies e ++ [b'])) R2 HS HM) as (bs & E & F & R3).
    + inversion ND; auto.
    + intros x Hx. cbn. rewrite map_app, in_app_iff. intros [H|[H|[]]]; [exact (NI x (or_intror Hx) H)|].
      cbn in ND. inversion ND; subst. apply H2. change (bn = nm3 x) in H. rewrite H. apply in_map. exact Hx.
    + rewrite E. cbn [set_bodies e_bodies] in *. rewrite <- app_assoc in *. exists (b' :: bs). split; [reflexivity|]. split; [|exact R3].
      constructor; auto. exists t, (length (e_bodies e)). reflexivity.
Qed.

(** ** what the stones are *)
Lemma each_map {A B} (f : B -> engine -> outcome) (g : A -> B) l e : each f (map g l) e = each (fun a => f (g a)) l e.
Proof. revert e. induction l as [|a l IH]; intros e; cbn; auto. destruct (f (g a) e); cbn; auto. Qed.
Lemma each_ext {A} (f g : A -> engine -> outcome) l e : (forall a e, In a l -> f a e = g a e) -> each f l e = each g l e.
Proof. revert e. induction l as [|a l IH]; intros e H; cbn; auto. rewrite H by (left; auto). destruct (g a e); cbn; auto. apply IH. intros; apply H; right; auto. Qed.
Lemma each_app {A} (f : A -> engine -> outcome) l l' e : each f (l ++ l') e = andthen (each f l e) (each f l').
Proof. revert e. induction l as [|a l IH]; intros e; cbn; auto. destruct (f a e); cbn; auto. Qed.
Lemma find_in_nodup (l : list body) b : NoDup (map b_name l) -> In b l -> find (fun a => name_eqb (b_name a) (b_name b)) l = Some b.
Proof.
  induction l as [|x l IH]; cbn; [tauto|]. intros ND [->|H]; [rewrite name_eqb_refl; auto|]. inversion ND; subst.
  rewrite name_eqb_neq; [auto|]. intros E. apply H2. rewrite E. apply in_map. auto.
Qed.
Lemma found_in e b : NoDup (map b_name (e_bodies e)) -> In b (e_bodies e) -> find_body e (b_name b) = Some b.
Proof. apply find_in_nodup. Qed.
Lemma model_stone (s : shape) t i bn r q b p : is_unit (sh_q s) -> is_unit q -> b_q b = b_q (stone s t i bn r q) -> b_r b = b_r (stone s t i bn r q) ->
  model_to_world b s p = at_pose r q p.
Proof.
  intros HS HQ E1 E2. unfold model_to_world. rewrite E1, E2. cbn [b_q b_r stone]. rewrite (q_unit_of_unit q HQ), q_rotate_prod, q_rotate_inv_r by auto.
  unfold at_pose. replace (vsub p (sh_r s)) with (vadd p (vopp (sh_r s))) by (unfold vsub, vadd, vopp; cbn; f_equal; ring). rewrite q_rotate_add, q_rotate_opp.
  generalize (q_rotate q p) (q_rotate q (sh_r s)). intros [a0 a1 a2] [b0 b1 b2]. destruct r. unfold vadd, vopp; cbn. f_equal; ring.
Qed.
Lemma adds_bodies e bs ss : (forall b, In b bs -> ~ In (b_name b) (map b_name (e_bodies e))) -> 
  adds e (set_bodies (set_shapes e (e_shapes e ++ ss)) (e_bodies e ++ bs)) (map b_name bs).
Proof.
  intros HB. split; [cbn; apply map_app|]. split.
  - intros m Hm. unfold find_body. cbn. destruct (find (fun b => name_eqb (b_name b) m) (e_bodies e)) as [b|] eqn:E; [apply (find_app_l b_name); auto|].
    apply (find_none b_name) in E. contradiction.
  - split; [|repeat split].
    intros m Hm. unfold find_shape. cbn. destruct (find (fun b => name_eqb (sh_name b) m) (e_shapes e)) as [b|] eqn:E; [apply (find_app_l sh_name); auto|].
    apply (find_none sh_name) in E. contradiction.
Qed.
