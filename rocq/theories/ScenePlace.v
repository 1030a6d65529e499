(** Stones that are placed first and finished afterwards; what the engine looks like then. *)
From Verif Require Import Base QuatModel QuatProofs VecModel VecProofs BvhModel BvhSpec GridModel VolModel RigidTypes RigidSpec CollModel BaryModel MassModel MassSpec
  StepModel StepProofs StepProofs2 ReadySpec ReadyProofs ConSpec ApiModel ApiSpec ApiProofs RotProofs QuatMatProofs Prop_Api Prop_Api2
  SurfModel SurfSpec SceneModel SceneSpec SceneMesh SceneProofs SceneShape.
From Coq Require Import Permutation.
Open Scope R_scope.

(** one stone: its name, the name of its shape, its pose *)
Definition item := (name * name * vec3 * quat)%type.
Definition it_name (x : item) : name := let '(bn, _, _, _) := x in bn.
Definition it_shape (x : item) : name := let '(_, sn, _, _) := x in sn.
Definition it_r (x : item) : vec3 := let '(_, _, r, _) := x in r.
Definition it_q (x : item) : quat := let '(_, _, _, q) := x in q.
(** the body that a stone has become *)
Definition placed (e : engine) (x : item) (b : body) : Prop :=
  exists s t i, find_shape e (it_shape x) = Some s /\ b = stone s t i (it_name x) (it_r x) (it_q x).
Definition built (e : engine) (fx : bool) (mat : name) (density : R) (x : item) (b : body) : Prop :=
  exists s t i, find_shape e (it_shape x) = Some s /\ b = finished s fx mat density (stone s t i (it_name x) (it_r x) (it_q x)).
Lemma place_all_ok eig sd : forall l e, reach eig sd sane_params e -> (forall x, In x l -> exists s, find_shape e (it_shape x) = Some s) ->
  NoDup (map it_name l) -> (forall x, In x l -> ~ In (it_name x) (map b_name (e_bodies e))) ->
  exists bs, place_all l e = Done (set_bodies e (e_bodies e ++ bs)) /\ Forall2 (placed e) l bs /\ reach eig sd sane_params (set_bodies e (e_bodies e ++ bs)).
Proof.
  induction l as [|[[[bn sn] r] q] l IH]; intros e HR HS ND NI.
  - exists []. rewrite app_nil_r, set_bodies_self. split; [reflexivity|]. split; [constructor|auto].
  - unfold place_all. cbn [each]. assert (HB : find_body e bn = None). { apply (find_none b_name). apply (NI (bn, sn, r, q)). left; reflexivity. }
    destruct (HS (bn, sn, r, q) (or_introl eq_refl)) as (s & Es). cbn in Es.
    destruct (place_ok eig sd e bn sn r q s HR HB Es) as (t & EP). rewrite EP. cbn [andthen].
    set (b := stone s t (length (e_bodies e)) bn r q) in *. set (e1 := set_bodies e (e_bodies e ++ [b])) in *.
    assert (R1 : reach eig sd sane_params e1) by (eapply place_reach; [exact HR|exact EP]).
    destruct (IH e1 R1) as (bs & E & F & R3).
    + intros x Hx. apply (HS x). right; auto.
    + inversion ND; auto.
    + intros x Hx. cbn. rewrite map_app, in_app_iff. intros [H|[H|[]]]; [exact (NI x (or_intror Hx) H)|].
      cbn in ND. inversion ND; subst. apply H2. change (bn = it_name x) in H. rewrite H. apply in_map. exact Hx.
    + unfold place_all in E. rewrite E. unfold e1 in *. cbn [set_bodies e_bodies] in *. rewrite <- app_assoc in *. exists (b :: bs). split; [reflexivity|]. split; [|exact R3].
      constructor; auto. exists s, t, (length (e_bodies e)). split; [exact Es|reflexivity].
Qed.
Lemma finish_all_reach eig sd names mat density e e' : reach eig sd sane_params e -> finish_all names mat density e = Done e' -> reach eig sd sane_params e'.
Proof. intros HR H. eapply (each_reach eig sd sane_params); [|exact HR|exact H]. intros a e1 e2 H1 H2. eapply finish_reach; [exact H1|exact H2]. Qed.
Lemma placed_names e l bs : Forall2 (placed e) l bs -> map b_name bs = map it_name l.
Proof. induction 1 as [|x b l bs H _ IH]; cbn; auto. destruct H as (s & t & i & _ & ->). cbn. f_equal. exact IH. Qed.
Lemma built_names e fx mat density l bs : Forall2 (built e fx mat density) l bs -> map b_name bs = map it_name l.
Proof. induction 1 as [|x b l bs H _ IH]; cbn; auto. destruct H as (s & t & i & _ & ->). cbn. f_equal. exact IH. Qed.
Lemma finish_all_ok mat density : forall l e0 e pre bs, e_bodies e = pre ++ bs -> Forall2 (placed e0) l bs -> NoDup (map b_name (e_bodies e)) -> exist_material (e_lib e) mat = true ->
  exists bs', finish_all (map it_name l) mat density e = Done (set_bodies e (pre ++ bs')) /\ Forall2 (built e0 false mat density) l bs'.
Proof.
  induction l as [|x l IH]; intros e0 e pre bs EB F ND HM.
  - inversion F; subst. exists []. rewrite <- EB, set_bodies_self. split; [reflexivity|constructor].
  - inversion F as [|x' b l' bs1 Hb F1]; subst. destruct Hb as (s & t & i & Es & ->). set (b := stone s t i (it_name x) (it_r x) (it_q x)) in *.
    assert (M : has_mid e pre b bs1 (it_name x)).
    { split; [exact EB|]. rewrite EB, map_app in ND. cbn [map] in ND. apply NoDup_remove_2 in ND. rewrite in_app_iff in ND. change (b_name b) with (it_name x) in ND. split; [tauto|]. split; [tauto|reflexivity]. }
    unfold finish_all. cbn [map each]. pose proof (finish_ok e _ _ _ _ false mat density s M eq_refl HM) as EF. cbn [type_name] in EF. rewrite EF. cbn [andthen].
    set (b' := finished s false mat density b) in *.
    destruct (IH e0 (set_bodies e (pre ++ b' :: bs1)) (pre ++ [b']) bs1) as (bs' & E & F').
    + cbn. rewrite <- app_assoc. reflexivity.
    + exact F1.
    + cbn. rewrite EB, map_app in ND. rewrite map_app. exact ND.
    + exact HM.
    + unfold finish_all in E. rewrite E, set_bodies_twice, <- app_assoc. exists (b' :: bs'). split; [reflexivity|]. constructor; auto. exists s, t, i. split; [exact Es|reflexivity].
Qed.
Lemma reach_names eig sd ok e : reach eig sd ok e -> NoDup (map b_name (e_bodies e)).
Proof. intros H. apply reach_wf in H. destruct H as ((H & _) & _). exact H. Qed.
Lemma place_finish_ok eig sd l mat density e : reach eig sd sane_params e -> (forall x, In x l -> exists s, find_shape e (it_shape x) = Some s) ->
  NoDup (map it_name l) -> (forall x, In x l -> ~ In (it_name x) (map b_name (e_bodies e))) -> exist_material (e_lib e) mat = true ->
  exists bs, andthen (place_all l e) (finish_all (map it_name l) mat density) = Done (set_bodies e (e_bodies e ++ bs)) /\ Forall2 (built e false mat density) l bs /\
    reach eig sd sane_params (set_bodies e (e_bodies e ++ bs)).
Proof.
  intros HR HS ND NI HM. destruct (place_all_ok eig sd l e HR HS ND NI) as (bs & E & F & R1). rewrite E. cbn [andthen].
  destruct (finish_all_ok mat density l e (set_bodies e (e_bodies e ++ bs)) (e_bodies e) bs eq_refl F (reach_names _ _ _ _ R1) HM) as (bs' & E' & F').
  rewrite set_bodies_twice in E'. exists bs'. split; [exact E'|]. split; [exact F'|]. eapply finish_all_reach; [exact R1|exact E'].
Qed.
(** stones that are placed and finished one by one *)
Lemma one_by_one_built e0 sn s mat density l bs : find_shape e0 sn = Some s -> Forall2 (is_stone s mat density) l bs ->
  Forall2 (built e0 false mat density) (map (fun x => let '(bn, r, q) := x in (bn, sn, r, q)) l) bs.
Proof.
  intros Es F. induction F as [|[[bn r] q] b l bs H F IH]; cbn; constructor; auto. destruct H as (t & i & ->). exists s, t, i. split; [exact Es|reflexivity].
Qed.

(** ** what the user sees *)
Definition stones (e : engine) (fx : bool) (mat : name) (density : R) (mesh : name -> list vec3 * list tri) (x : item) : Prop :=
  (is_unit (it_q x) -> stands e (it_name x) (mesh (it_shape x)) (it_r x) (it_q x)) /\
  exists m, pos_up_to_clamp (volume (fst (mesh (it_shape x))) (snd (mesh (it_shape x)))) m /\ at_rest e (it_name x) fx mat (m * density).
Lemma body_stones e' e1 (fx : bool) mat density mesh x b : NoDup (map b_name (e_bodies e')) -> In b (e_bodies e') -> built e1 fx mat density x b ->
  (forall s, find_shape e1 (it_shape x) = Some s -> is_shape_of s (fst (mesh (it_shape x))) (snd (mesh (it_shape x)))) -> stones e' fx mat density mesh x.
Proof.
  intros ND Hb (s & t & i & Es & Eb) HS.
  destruct (HS s Es) as (HU & (HM & _) & HP & _).
  assert (FB : find_body e' (it_name x) = Some b). { replace (it_name x) with (b_name b) by (rewrite Eb; reflexivity). apply found_in; auto. }
  split.
  - intros UQ. destruct (HP b) as [P1 P2]. exists (map (body_to_world b) (sh_V s)), (sh_T s). split; [|].
    + exists b, s. split; [exact FB|]. split; [rewrite Eb; reflexivity|]. split; reflexivity.
    + assert (EM : map (model_to_world b s) (fst (mesh (it_shape x))) = map (at_pose (it_r x) (it_q x)) (fst (mesh (it_shape x)))).
      { apply map_ext. intros p. apply (model_stone s t i (it_name x)); auto; rewrite Eb; reflexivity. }
      rewrite EM in P1, P2. split; [exact P1|exact P2].
  - exists (sh_mass s). split; [exact HM|]. exists b. split; [exact FB|]. rewrite Eb. cbn. repeat split.
Qed.
Lemma built_stones e fx mat density mesh l bs ss : NoDup (map b_name (e_bodies e ++ bs)) ->
  Forall2 (built (set_shapes e ss) fx mat density) l bs ->
  (forall x s, In x l -> find_shape (set_shapes e ss) (it_shape x) = Some s -> is_shape_of s (fst (mesh (it_shape x))) (snd (mesh (it_shape x)))) ->
  forall x, In x l -> stones (set_bodies (set_shapes e ss) (e_bodies e ++ bs)) fx mat density mesh x.
Proof.
  intros ND F HS x Hx. assert (exists b, In b bs /\ built (set_shapes e ss) fx mat density x b) as (b & Hb & HB).
  { clear - F Hx. induction F as [|y b l bs H F IH]; [destruct Hx|]. destruct Hx as [->|Hx]; [exists b; split; [left; auto|auto]|]. destruct (IH Hx) as (b' & H1 & H2). exists b'. split; [right; auto|auto]. }
  eapply body_stones; [exact ND| |exact HB|]; [cbn; apply in_or_app; right; exact Hb|]. intros s Es. exact (HS x s Hx Es).
Qed.
(** a builder that leaves the hinges alone leaves an engine that is set up *)
Lemma set_up_any e mat density mesh l bs ss : set_up e -> density <> 0 ->
  Forall2 (fun x b => exists fx, built (set_shapes e ss) fx mat density x b) l bs ->
  (forall x s, In x l -> find_shape (set_shapes e ss) (it_shape x) = Some s -> is_shape_of s (fst (mesh (it_shape x))) (snd (mesh (it_shape x)))) ->
  (forall x, In x l -> counted_stone (fst (mesh (it_shape x))) (snd (mesh (it_shape x)))) ->
  set_up (set_bodies (set_shapes e ss) (e_bodies e ++ bs)).
Proof.
  intros (U1 & U2 & U3) HD F HS HC. 
  assert (G : forall b, In b bs -> exists x s t i fx, In x l /\ find_shape (set_shapes e ss) (it_shape x) = Some s /\ b = finished s fx mat density (stone s t i (it_name x) (it_r x) (it_q x))).
  { clear - F. induction F as [|y b l bs H F IH]; intros b' Hb'; [destruct Hb'|]. destruct Hb' as [<-|Hb'].
    - destruct H as (fx & s & t & i & E & E'). exists y, s, t, i, fx. split; [left; auto|auto].
    - destruct (IH b' Hb') as (x & s & t & i & fx & H1 & H2). exists x, s, t, i, fx. split; [right; auto|auto]. }
  split; [|split].
  - cbn. intros b Hb. apply in_app_or in Hb as [Hb|Hb]; [exact (U1 b Hb)|]. destruct (G b Hb) as (x & s & t & i & fx & Hx & Es & ->).
    destruct (HS x s Hx Es) as (_ & _ & _ & K). destruct (K (HC x Hx)) as (K1 & _). exists s. split; [reflexivity|exact K1].
  - cbn. intros b Hb Hf. apply in_app_or in Hb as [Hb|Hb]; [exact (U2 b Hb Hf)|]. destruct (G b Hb) as (x & s & t & i & fx & Hx & Es & ->).
    destruct (HS x s Hx Es) as (_ & (PM & _) & _ & K). destruct (K (HC x Hx)) as (_ & K0 & K1 & K2). destruct (HC x Hx) as (HV & _). apply pos_clamp_val in PM; auto.
    cbn. assert (0 < tiny) by (unfold tiny; lra). rewrite PM. split; [apply Rmult_integral_contrapositive; split; lra|]. split; [|split]; (apply Rmult_integral_contrapositive; split; [auto|lra]).
  - exact U3.
Qed.

Lemma set_up_stones e fx mat density mesh l bs ss : set_up e -> density <> 0 ->
  Forall2 (built (set_shapes e ss) fx mat density) l bs ->
  (forall x s, In x l -> find_shape (set_shapes e ss) (it_shape x) = Some s -> is_shape_of s (fst (mesh (it_shape x))) (snd (mesh (it_shape x)))) ->
  (forall x, In x l -> counted_stone (fst (mesh (it_shape x))) (snd (mesh (it_shape x)))) ->
  set_up (set_bodies (set_shapes e ss) (e_bodies e ++ bs)).
Proof.
  intros HU HD F. apply (set_up_any e mat density mesh l bs ss); auto. clear - F. induction F; constructor; eauto.
Qed.

(** ** where the points of a body are *)
Lemma in_hull_perm V W p : Permutation V W -> in_hull V p -> in_hull W p.
Proof. intros P H n c Hc. apply H. intros v Hv. apply Hc. apply (Permutation_in _ P). exact Hv. Qed.
Lemma stands_occupies e n VT r q p : stands e n VT r q -> (occupies e n p <-> in_hull (map (at_pose r q) (fst VT)) p).
Proof.
  intros (W & T & HW & P & _). split.
  - intros (W' & T' & (b' & s' & B1 & B2 & -> & ->) & H). destruct HW as (b & s & C1 & C2 & -> & ->). rewrite C1 in B1. apply some_eq in B1. subst b'. rewrite C2 in B2. apply some_eq in B2. subst s'.
    apply (in_hull_perm _ _ p (Permutation_sym P)). exact H.
  - intros H. exists W, T. split; [exact HW|]. apply (in_hull_perm _ _ p P). exact H.
Qed.
Lemma at_pose_dot r q n v : is_unit q -> vdot n (at_pose r q v) = vdot (q_rotate (q_conj q) n) v + vdot n r.
Proof.
  intros U. unfold at_pose. assert (E : vdot n (q_rotate q v) = vdot (q_rotate (q_conj q) n) v).
  { rewrite <- (q_rotate_inv_r q n U) at 1. pose proof (q_rotate_dot q (q_rotate (q_conj q) n) v) as QD. unfold is_unit in U. rewrite QD, U. ring. }
  rewrite <- E. unfold vdot, vadd; cbn. ring.
Qed.
(** a point of a posed body is the pose of a point of the model *)
Lemma hull_pose V r q p : is_unit q -> in_hull (map (at_pose r q) V) p -> in_hull V (q_rotate (q_conj q) (vsub p r)).
Proof.
  intros U H n c Hc. specialize (H (q_rotate q n) (c + vdot (q_rotate q n) r)). 
  assert (E : vdot n (q_rotate (q_conj q) (vsub p r)) = vdot (q_rotate q n) (vsub p r)).
  { rewrite <- (q_rotate_inv_r q (vsub p r) U) at 2. pose proof (q_rotate_dot q n (q_rotate (q_conj q) (vsub p r))) as QD. unfold is_unit in U. rewrite QD, U. ring. }
  rewrite E. assert (K : vdot (q_rotate q n) p <= c + vdot (q_rotate q n) r).
  { apply H. intros v Hv. apply in_map_iff in Hv as (x & <- & Hx). rewrite at_pose_dot by auto. rewrite q_rotate_inv_l by auto. specialize (Hc x Hx). lra. }
  replace (vdot (q_rotate q n) (vsub p r)) with (vdot (q_rotate q n) p - vdot (q_rotate q n) r) by (unfold vdot, vsub; cbn; ring). lra.
Qed.
Lemma stands_inside e n VT r q p : is_unit q -> stands e n VT r q -> occupies e n p -> exists x, p = at_pose r q x /\ in_hull (fst VT) x.
Proof.
  intros U HS HO. exists (q_rotate (q_conj q) (vsub p r)). split.
  - unfold at_pose. rewrite q_rotate_inv_r by auto. destruct p, r. unfold vadd, vsub; cbn. f_equal; ring.
  - apply hull_pose; auto. apply (stands_occupies e n VT r q p HS). exact HO.
Qed.

(** ** whole builders *)
Lemma make_one_shape eig sd e sn V T : eig_diagonal eig -> reach eig sd sane_params e -> (2 <= p_resolution (e_params e))%Z -> ~ In sn (map sh_name (e_shapes e)) -> good_stone V T ->
  exists s, make_shape eig sd sn (V, T) e = Done (set_shapes e (e_shapes e ++ [s])) /\ reach eig sd sane_params (set_shapes e (e_shapes e ++ [s])) /\
    sh_name s = sn /\ find_shape (set_shapes e (e_shapes e ++ [s])) sn = Some s /\ is_shape_of s V T.
Proof.
  intros HE HR HN HF HG. destruct (make_shape_ok eig sd e sn V T HE HR HN) as (s & E & R1 & EN & IS); auto.
  { unfold find_shape. destruct (find _ (e_shapes e)) as [s|] eqn:E; auto. exfalso. apply (find_some sh_name) in E as [H1 H2]. apply HF. rewrite <- H2. apply in_map. exact H1. }
  exists s. split; [exact E|]. split; [exact R1|]. split; [exact EN|]. split; [|exact IS]. unfold find_shape. cbn. rewrite (find_app_r sh_name) by exact HF. cbn. rewrite EN, name_eqb_refl. reflexivity.
Qed.
Lemma builder_result eig sd e ss fx mat density mesh l bs : let e1 := set_shapes e (e_shapes e ++ ss) in let e' := set_bodies e1 (e_bodies e ++ bs) in
  reach eig sd sane_params e' -> (forall x, In x l -> ~ In (it_name x) (map b_name (e_bodies e))) -> Forall2 (built e1 fx mat density) l bs ->
  (forall x s, In x l -> find_shape e1 (it_shape x) = Some s -> is_shape_of s (fst (mesh (it_shape x))) (snd (mesh (it_shape x)))) ->
  adds e e' (map it_name l) /\ e_hinges e' = e_hinges e /\ (forall x, In x l -> stones e' fx mat density mesh x) /\
  (set_up e -> density <> 0 -> (forall x, In x l -> counted_stone (fst (mesh (it_shape x))) (snd (mesh (it_shape x)))) -> set_up e').
Proof.
  intros e1 e' HR NI F HS. pose proof (built_names _ _ _ _ _ _ F) as EN.
  split. { rewrite <- EN. apply adds_bodies. intros b Hb. apply (in_map b_name) in Hb. rewrite EN in Hb. apply in_map_iff in Hb as (x & <- & Hx). exact (NI x Hx). }
  split; [reflexivity|]. split.
  - intros x Hx. apply (built_stones e fx mat density mesh l bs _ (reach_names _ _ _ _ HR) F HS x Hx).
  - intros HU HD HC. exact (set_up_stones e fx mat density mesh l bs _ HU HD F HS HC).
Qed.
