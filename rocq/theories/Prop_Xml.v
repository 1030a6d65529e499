(** Property theorems C151-C153: write_xml.
    [file_reads f t]: a reader of XML 1.0 sees the tree t in the file f (XmlSpec.v). *)
From Coq Require Import String Ascii.
From Verif Require Import Base QuatModel VecModel VolModel RigidTypes ConSpec ApiModel ApiSpec ApiProofs Prop_Api Prop_Mass Prop_Api2 ReadyProofs XmlModel XmlSpec XmlProofs.
Open Scope R_scope.

(** ** the elements *)
Lemma says_body_view p b x : body_xml p b = Some x -> says_body p b (view x).
Proof.
  unfold body_xml. destruct (b_shape b) as [s|] eqn:E; [|discriminate]. intros [= <-]. unfold says_body. cbn [view map fst snd seen tag].
  repeat match goal with |- _ /\ _ => split end; try reflexivity.
  - exists s. split; [exact E|reflexivity].
  - destruct (b_fixed b); reflexivity.
  - cbn [children]. induction (b_forces b) as [|f l IH]; cbn [map]; constructor; [|exact IH]. split; reflexivity.
Qed.
Lemma says_force_view p f : says_force p f (view (force_xml p f)).
Proof. destruct f; unfold says_force; repeat match goal with |- _ /\ _ => split end; exact eq_refl. Qed.
Lemma says_list_view {A} p t k (g : A -> name) (mk : nat * A -> xml value) cnt (l : list A) vs :
  vs = map g l -> (forall i x, view (mk (i, x)) = Elem (lit t) [(lit "idx", pr_nat p i); (lit k, g x)] []) -> lit k <> lit "idx" -> lit k <> lit "count" ->
  says_list p t k vs (view (Elem cnt [(lit "count", Str (pr_nat p (length l)))] (map mk (enumerate l)))).
Proof.
  intros -> Hmk Nk Nc. unfold says_list. cbn [view map children fst snd seen]. repeat split.
  - rewrite map_length. reflexivity.
  - rewrite !map_length. apply enumerate_len.
  - intros i v H. rewrite nth_error_map in H. destruct (nth_error l i) as [x|] eqn:E; [|discriminate]. injection H as <-. apply enumerate_nth in E.
    exists (view (mk (i, x))). rewrite !nth_error_map, E. cbn [option_map]. rewrite Hmk.
    assert (N1 : name_eqb (lit k) (lit "idx") = false) by (destruct (name_eqb_spec (lit k) (lit "idx")); [contradiction|reflexivity]).
    assert (N2 : name_eqb (lit "idx") (lit k) = false) by (destruct (name_eqb_spec (lit "idx") (lit k)); [congruence|reflexivity]).
    split; [exact eq_refl|]. split; [exact eq_refl|]. unfold attr. cbn [attrs filter fst]. rewrite !name_eqb_refl, N1, N2. split; exact eq_refl.
Qed.
Lemma says_shape_view p s : says_shape p s (view (shape_xml p s)).
Proof.
  unfold says_shape, shape_xml. repeat split; try reflexivity.
  - exists (view (Elem (lit "vertices") [(lit "count", Str (pr_nat p (length (sh_V s))))] (map (vertex_xml p) (enumerate (sh_V s))))). split; [reflexivity|].
    apply (says_list_view p "v" "p" (pr_V p)); [reflexivity|intros; reflexivity|discriminate|discriminate].
  - exists (view (Elem (lit "triangles") [(lit "count", Str (pr_nat p (length (sh_T s))))] (map (triangle_xml p) (enumerate (sh_T s))))). split; [reflexivity|].
    apply (says_list_view p "t" "labels" (pr_T p)); [reflexivity|intros; reflexivity|discriminate|discriminate].
Qed.
Lemma says_interaction_view p ki : says_interaction p ki (view (interaction_xml p ki)).
Proof. unfold says_interaction; repeat match goal with |- _ /\ _ => split end; exact eq_refl. Qed.
Lemma find_body_in e n P : find_body e n = Some P -> In P (e_bodies e) /\ b_name P = n.
Proof. intros H. apply (find_some b_name) in H. exact H. Qed.
Lemma says_hinge_view p e i h x : hinge_xml p e (i, h) = Some x -> says_hinge p e h (view x) /\ attr (view x) "idx" (pr_nat p i).
Proof.
  unfold hinge_xml. cbn [fst snd]. destruct (h_sockets h) as [[sp sc]|] eqn:E; [|discriminate]. cbn [fst snd].
  destruct (find_body e (sk_body sp)) as [P|] eqn:EP; [|discriminate]. destruct (find_body e (sk_body sc)) as [C|] eqn:EC; [|discriminate]. intros [= <-].
  apply find_body_in in EP as [IP NP]. apply find_body_in in EC as [IC NC]. split; [|reflexivity].
  exists sp, sc, P, C. repeat match goal with |- _ /\ _ => split end; auto; reflexivity.
Qed.
Lemma pick_here {A} (Q : A -> Prop) a l : Q a -> exists y, In y (a :: l) /\ Q y.
Proof. intros H. exists a. split; [left; reflexivity|exact H]. Qed.
Lemma pick_next {A} (Q : A -> Prop) a l : (exists y, In y l /\ Q y) -> exists y, In y (a :: l) /\ Q y.
Proof. intros (y & H & K). exists y. split; [right; exact H|exact K]. Qed.
Ltac pick := first [apply pick_here; split; [exact eq_refl|split; exact eq_refl]|apply pick_next; pick].
Lemma says_params_view p P : says_params p P (view (Elem (lit "params") [] (params_xml p P))).
Proof.
  unfold says_params, params_xml, param_xml. cbn [view map fst snd seen children]. split; [|split].
  - repeat (apply Forall_cons; [exact eq_refl|]). apply Forall_nil.
  - exact eq_refl.
  - intros n ty v H. match goal with |- exists y, In y ?l /\ _ => set (L := l) end.
    assert (F : Forall (fun q => exists y, In y L /\ attr y "name" (lit (fst (fst q))) /\ attr y "type" (lit (snd (fst q))) /\ attr y "value" (snd q)) (param_list p P)).
    { subst L. unfold param_list. repeat (apply Forall_cons; [cbn [fst snd]; pick|]). apply Forall_nil. }
    rewrite Forall_forall in F. apply (F _ H).
Qed.
Lemma says_scene_view p e x : scene_xml p e = Some x -> says_scene p e (view x).
Proof.
  unfold scene_xml. destruct (map_some (body_xml p) (e_bodies e)) as [bs|] eqn:EB; [|discriminate].
  destruct (map_some (hinge_xml p e) (enumerate (e_hinges e))) as [hs|] eqn:EH; [|discriminate]. intros [= <-].
  apply map_some_forall2 in EB. apply map_some_forall2 in EH. unfold says_scene. split; [exact eq_refl|].
  split; [|split; [|split; [|split; [|split]]]].
  - exists (view (Elem (lit "bodies") [] bs)). split; [exact eq_refl|]. cbn [view children]. induction EB as [|b y l m E F IH]; cbn [map]; constructor; [apply says_body_view; exact E|exact IH].
  - exists (view (Elem (lit "forces") [] (map (force_xml p) (e_forces e)))). split; [exact eq_refl|]. cbn [view children]. induction (e_forces e) as [|f l IH]; cbn [map]; constructor; [apply says_force_view|exact IH].
  - exists (view (Elem (lit "shapes") [] (map (shape_xml p) (e_shapes e)))). split; [exact eq_refl|]. cbn [view children]. induction (e_shapes e) as [|f l IH]; cbn [map]; constructor; [apply says_shape_view|exact IH].
  - exists (view (Elem (lit "materials") [] (map (interaction_xml p) (e_lib e)))). split; [exact eq_refl|]. cbn [view children]. induction (e_lib e) as [|f l IH]; cbn [map]; constructor; [apply says_interaction_view|exact IH].
  - exists (view (Elem (lit "hinges") [] hs)). split; [exact eq_refl|]. cbn [view children].
    rewrite <- (enumerate_snd (e_hinges e)) at 1. revert EH. generalize (enumerate (e_hinges e)). intros L EH.
    induction EH as [|[i h] y l m E F IH]; cbn [map snd]; constructor; [apply says_hinge_view in E; apply E|exact IH].
  - exists (view (Elem (lit "params") [] (params_xml p (e_params e)))). split; [exact eq_refl|]. apply says_params_view.
Qed.
(** the values that are tuples are the keys of the interactions *)
Ltac strs := repeat (apply Forall_cons; [exact I|]); apply Forall_nil.
Lemma forall_map {A B} (P : B -> Prop) (f : A -> B) l : (forall x, In x l -> P (f x)) -> Forall P (map f l).
Proof. intros H. apply Forall_forall. intros y K. apply in_map_iff in K as (x & <- & K). auto. Qed.
Lemma scene_tree_all (Q : value -> Prop) p e x : scene_xml p e = Some x -> (forall s, Q (Str s)) ->
  (tree_all Q x <-> Forall (fun ki => Q (Pair (fst (fst ki)) (snd (fst ki)))) (e_lib e)).
Proof.
  intros HS HQ. assert (HL : forall t a c, Forall (fun kv => exists s, snd kv = Str s) a -> Forall (tree_all Q) c -> tree_all Q (Elem t a c)).
  { intros t a c Ha Hc. apply tree_all_eq. split; [|exact Hc]. revert Ha. apply Forall_impl. intros kv [s ->]. apply HQ. }
  unfold scene_xml in HS. destruct (map_some (body_xml p) (e_bodies e)) as [bs|] eqn:EB; [|discriminate].
  destruct (map_some (hinge_xml p e) (enumerate (e_hinges e))) as [hs|] eqn:EH; [|discriminate]. injection HS as <-.
  assert (KB : tree_all Q (Elem (lit "bodies") [] bs)).
  { apply HL; [constructor|]. apply map_some_forall2 in EB. induction EB as [|b y l m E F IH]; constructor; [|exact IH]. unfold body_xml in E. destruct (b_shape b); [|discriminate]. injection E as <-.
    apply HL; [repeat (apply Forall_cons; [eexists; reflexivity|]); apply Forall_nil|]. apply forall_map. intros f _. apply HL; [repeat (apply Forall_cons; [eexists; reflexivity|]); apply Forall_nil|constructor]. }
  assert (KF : tree_all Q (Elem (lit "forces") [] (map (force_xml p) (e_forces e)))).
  { apply HL; [constructor|]. apply forall_map. intros [n g up|n g up] _; (apply HL; [repeat (apply Forall_cons; [eexists; reflexivity|]); apply Forall_nil|constructor]). }
  assert (KS : tree_all Q (Elem (lit "shapes") [] (map (shape_xml p) (e_shapes e)))).
  { apply HL; [constructor|]. apply forall_map. intros s _. apply HL; [repeat (apply Forall_cons; [eexists; reflexivity|]); apply Forall_nil|].
    repeat (apply Forall_cons; [apply HL; [repeat (apply Forall_cons; [eexists; reflexivity|]); apply Forall_nil|apply forall_map; intros iv _; apply HL; [repeat (apply Forall_cons; [eexists; reflexivity|]); apply Forall_nil|constructor]]|]). apply Forall_nil. }
  assert (KH : tree_all Q (Elem (lit "hinges") [] hs)).
  { apply HL; [constructor|]. apply map_some_forall2 in EH. induction EH as [|b y l m E F IH]; constructor; [|exact IH]. unfold hinge_xml in E. destruct (h_sockets (snd b)) as [sk|]; [|discriminate]. destruct (find_body e (sk_body (fst sk))); [|discriminate]. destruct (find_body e (sk_body (snd sk))); [|discriminate]. injection E as <-.
    apply HL; [repeat (apply Forall_cons; [eexists; reflexivity|]); apply Forall_nil|constructor]. }
  assert (KP : tree_all Q (Elem (lit "params") [] (params_xml p (e_params e)))).
  { apply HL; [constructor|]. unfold params_xml, param_xml. repeat (apply Forall_cons; [apply HL; [repeat (apply Forall_cons; [eexists; reflexivity|]); apply Forall_nil|constructor]|]). apply Forall_nil. }
  rewrite tree_all_eq. assert (KM : tree_all Q (Elem (lit "materials") [] (map (interaction_xml p) (e_lib e))) <-> Forall (fun ki => Q (Pair (fst (fst ki)) (snd (fst ki)))) (e_lib e)).
  { rewrite tree_all_eq. rewrite Forall_map. split.
    - intros [_ H]. revert H. apply Forall_impl. intros ki H. apply tree_all_eq in H as [H _]. inversion H; assumption.
    - intros H. split; [constructor|]. revert H. apply Forall_impl. intros ki H. apply tree_all_eq. split; [|constructor]. apply Forall_cons; [exact H|]. repeat (apply Forall_cons; [apply HQ|]). apply Forall_nil. }
  split.
  - intros [_ H]. inversion H as [|a1 l1 _ H1]; subst. inversion H1 as [|a2 l2 _ H2]; subst. inversion H2 as [|a3 l3 _ H3]; subst. inversion H3 as [|a4 l4 H4 _]; subst. apply KM. exact H4.
  - intros H. split; [constructor|]. apply KM in H. repeat (apply Forall_cons; [assumption|]). apply Forall_nil.
Qed.

(** ** C151: the file says what the scene is *)
(** A scene file of an engine whose materials are plain is read in exactly one way, and what is read are the bodies, forces, shapes,
    interactions, hinges and parameters of the engine. *)
Theorem C151_says p e f : plain_materials e -> write_xml p e = Some f ->
  exists t, file_reads f t /\ (forall t', file_reads f t' -> t' = t) /\ says_scene p e t.
Proof.
  intros HP H. unfold write_xml in H. destruct (scene_xml p e) as [x|] eqn:E; [|discriminate].
  assert (PT : plain_tree x) by (apply (scene_tree_all plain_value p e x E); [intros s; exact I|exact HP]).
  pose proof (file_reads_view x PT f H) as R. exists (view x). split; [exact R|]. split; [|apply says_scene_view; exact E].
  intros t' R'. eapply file_reads_det; eauto.
Qed.
(** every other attribute (a string) is read as what was written, whatever characters it has *)
Theorem C151_strings s : exists r, attr_text (Str s) = Some r /\ reads r s /\ (forall s', reads r s' -> s' = s).
Proof. exists (escape s). split; [reflexivity|]. split; [apply reads_escape|]. intros s' H. eapply reads_det; [exact H|apply reads_escape]. Qed.
(** ** when a file is written *)
Lemma attr_ok v : attr_text v <> None <-> match v with Str _ => True | Pair a b => ~ bad_material a /\ ~ bad_material b end.
Proof.
  destruct v as [s|a b]; [split; [auto|discriminate]|]. unfold attr_text. destruct (existsb (fun c => name_eqb [c] a || name_eqb [c] b) specials) eqn:E.
  - split; [congruence|]. intros [Ha Hb] _. apply existsb_exists in E as (c & Hc & E). apply orb_true_iff in E as [E|E].
    + apply Ha. exists c. destruct (name_eqb_spec [c] a); [auto|discriminate].
    + apply Hb. exists c. destruct (name_eqb_spec [c] b); [auto|discriminate].
  - split; [|discriminate]. intros _. assert (G : forall c, In c specials -> name_eqb [c] a = false /\ name_eqb [c] b = false).
    { intros c Hc. destruct (orb_false_iff (name_eqb [c] a) (name_eqb [c] b)) as [G _]. apply G. destruct (name_eqb [c] a || name_eqb [c] b) eqn:K; [|reflexivity].
      assert (T : existsb (fun c => name_eqb [c] a || name_eqb [c] b) specials = true) by (apply existsb_exists; exists c; auto). congruence. }
    split; intros (c & -> & Hc); destruct (G c Hc) as [G1 G2]; rewrite name_eqb_refl in *; discriminate.
Qed.
Lemma scene_xml_ok eig sd ok p e : reach eig sd ok e -> (exists x, scene_xml p e = Some x) <-> complete e.
Proof.
  intros HR. pose proof (reach_wf _ _ _ _ HR) as W. destruct W as (_ & _ & _ & _ & WH & _). unfold scene_xml, complete.
  assert (IB : (exists bs, map_some (body_xml p) (e_bodies e) = Some bs) <-> Forall (fun b => b_shape b <> None) (e_bodies e)).
  { rewrite map_some_ex. split; apply Forall_impl; intros b; unfold body_xml; destruct (b_shape b); congruence. }
  assert (IH : (exists hs, map_some (hinge_xml p e) (enumerate (e_hinges e)) = Some hs) <-> Forall (fun h => h_sockets h <> None) (e_hinges e)).
  { rewrite map_some_ex. rewrite <- (enumerate_snd (e_hinges e)) at 2. rewrite Forall_map.
    assert (WE : Forall (fun ih => hinge_sound e (snd ih)) (enumerate (e_hinges e))) by (rewrite <- Forall_map, enumerate_snd; exact WH). clear WH IB. revert WE. generalize (enumerate (e_hinges e)). intros L. induction L as [|[i h] L IHL]; intros WE; [split; constructor|].
    apply Forall_cons_iff in WE as [W0 W1]. rewrite !Forall_cons_iff, IHL by exact W1. apply and_iff_compat_r. cbn [snd] in *. unfold hinge_xml. cbn [snd]. destruct (h_sockets h) as [[sp sc]|] eqn:E; [|tauto]. destruct (W0 sp sc E) as (I1 & I2 & _). cbn [fst snd].
    destruct (find_body e (sk_body sp)) as [P|] eqn:EP; [|apply (find_none b_name) in EP; contradiction]. destruct (find_body e (sk_body sc)) as [C|] eqn:EC; [|apply (find_none b_name) in EC; contradiction].
    split; discriminate. }
  rewrite <- IB, <- IH. split.
  - intros [x H]. destruct (map_some (body_xml p) (e_bodies e)) as [bs|]; [|discriminate]. destruct (map_some (hinge_xml p e) (enumerate (e_hinges e))) as [hs|]; [|discriminate]. split; eauto.
  - intros [[bs ->] [hs ->]]. eauto.
Qed.
(** A file is written exactly when every body has a shape, every hinge has been attached, and no interaction is about a material
    whose name is a single character that XML escapes; otherwise write_xml raises. *)
Theorem C151_written eig sd ok p e : reach eig sd ok e ->
  (exists f, write_xml p e = Some f) <->
  complete e /\ Forall (fun ki => ~ bad_material (fst (fst ki)) /\ ~ bad_material (snd (fst ki))) (e_lib e).
Proof.
  intros HR. rewrite <- (scene_xml_ok eig sd ok p e HR). unfold write_xml.
  assert (G : forall x, scene_xml p e = Some x -> ((exists f, file_of x = Some f) <-> Forall (fun ki => ~ bad_material (fst (fst ki)) /\ ~ bad_material (snd (fst ki))) (e_lib e))).
  { intros x E. rewrite file_of_ok. rewrite (scene_tree_all _ p e x E) by (intros; discriminate). split; apply Forall_impl; intros ki; apply (attr_ok (Pair (fst (fst ki)) (snd (fst ki)))). }
  split.
  - intros [f H]. destruct (scene_xml p e) as [x|] eqn:E; [|discriminate]. split; [eauto|]. apply (G x eq_refl). eauto.
  - intros [[x E] H]. rewrite E in *. apply (G x eq_refl). exact H.
Qed.

(** ** C152: the file determines the scene *)
Lemma exact_V p good v w : exact p good -> v_all good v -> v_all good w -> pr_V p v = pr_V p w -> v = w.
Proof.
  intros (_ & H & _) (a1 & a2 & a3) (b1 & b2 & b3) E. destruct v as [x y z], w as [x' y' z']. cbn [vx vy vz] in *. destruct (H x y z x' y' z') as (-> & -> & ->); auto.
Qed.
Lemma exact_Q p good v w : exact p good -> q_all good v -> q_all good w -> pr_Q p v = pr_Q p w -> v = w.
Proof.
  intros (_ & _ & H & _) (a0 & a1 & a2 & a3) (b0 & b1 & b2 & b3) E. destruct v as [s x y z], w as [s' x' y' z']. cbn [qs qx qy qz] in *. destruct (H s x y z s' x' y' z') as (-> & -> & -> & ->); auto.
Qed.
Lemma exact_nat p good m n : exact p good -> pr_nat p m = pr_nat p n -> m = n.
Proof. intros (_ & _ & _ & H & _) E. apply H in E. lia. Qed.
Definition body_numbers (good : R -> Prop) (b : body) : Prop := v_all good (b_r b) /\ q_all good (b_q b) /\ v_all good (b_v b) /\ v_all good (b_w b) /\ good (b_mass b) /\ v_all good (b_inertia b).
Lemma same_body_view p good b c x y : exact p good -> body_numbers good b -> body_numbers good c ->
  body_xml p b = Some x -> body_xml p c = Some y -> view x = view y -> same_body b c.
Proof.
  intros HE (n1 & n2 & n3 & n4 & n5 & n6) (m1 & m2 & m3 & m4 & m5 & m6) Ex Ey H. unfold body_xml in *.
  destruct (b_shape b) as [s|] eqn:Es; [|discriminate]. destruct (b_shape c) as [t|] eqn:Et; [|discriminate]. injection Ex as <-. injection Ey as <-. cbn [view map fst snd seen] in H.
  injection H as H1 H2 H3 H4 H5 H6 H7 H8 H9 H10 H11 H12. unfold same_body. rewrite Es, Et. cbn [option_map].
  repeat match goal with |- _ /\ _ => split end; eauto using exact_nat, exact_V, exact_Q.
  - destruct HE as (HE & _). auto.
  - unfold pr_bool in H10. destruct (b_fixed b), (b_fixed c); auto; discriminate.
  - congruence.
  - revert H12. generalize (b_forces c). induction (b_forces b) as [|f l IH]; intros [|g l2] K; cbn [map] in *; try discriminate; [reflexivity|]. injection K as K1 K2. f_equal; [cbn in K1; congruence|auto].
Qed.
Lemma map_view_some {A} (f g : A -> option (xml value)) (R : A -> A -> Prop) l m xs ys :
  (forall a b x y, In a l -> In b m -> f a = Some x -> g b = Some y -> view x = view y -> R a b) ->
  Forall2 (fun a x => f a = Some x) l xs -> Forall2 (fun a x => g a = Some x) m ys -> map view xs = map view ys -> Forall2 R l m.
Proof.
  intros H F. revert m ys H. induction F as [|a x l xs E F IH]; intros m ys H G K; inversion G as [|b y m' ys' E2 G2]; subst; cbn [map] in K; try discriminate; constructor.
  - injection K as K1 K2. eapply H; eauto; left; reflexivity.
  - injection K as K1 K2. eapply IH; eauto. intros a' b' x' y' I1 I2. apply H; right; assumption.
Qed.
Lemma map_view {A} (f : A -> xml value) (R : A -> A -> Prop) l m :
  (forall a b, In a l -> In b m -> view (f a) = view (f b) -> R a b) -> map view (map f l) = map view (map f m) -> Forall2 R l m.
Proof.
  revert m. induction l as [|a l IH]; intros [|b m] H K; cbn [map] in K; try discriminate; constructor; injection K as K1 K2.
  - apply H; auto; left; reflexivity.
  - apply IH; auto. intros a' b' I1 I2. apply H; right; assumption.
Qed.
Lemma forall2_eq {A} (l m : list A) : Forall2 eq l m -> l = m.
Proof. induction 1; congruence. Qed.
Lemma enum_view {A} (f : nat * A -> xml value) (l m : list A) :
  (forall i j a b, In a l -> In b m -> view (f (i, a)) = view (f (j, b)) -> a = b) -> map view (map f (enumerate l)) = map view (map f (enumerate m)) -> l = m.
Proof.
  unfold enumerate. generalize 0%nat. revert m. induction l as [|a l IH]; intros [|b m] k H K; cbn [length seq combine map] in K; try discriminate; [reflexivity|].
  injection K as K1 K2. f_equal.
  - eapply H; eauto; left; reflexivity.
  - eapply IH; [|exact K2]. intros i j a' b' I1 I2. apply H; right; assumption.
Qed.
Lemma same_shape_view p good s t : exact p good -> Forall (v_all good) (sh_V s) -> Forall (v_all good) (sh_V t) ->
  view (shape_xml p s) = view (shape_xml p t) -> same_shape s t.
Proof.
  intros HE Gs Gt H. unfold shape_xml in H. cbn [view map fst snd seen] in H. injection H as H1 _ H2 _ H3. rewrite Forall_forall in Gs, Gt.
  split; [exact H1|]. split.
  - eapply enum_view; [|exact H2]. intros i j a b Ia Ib K. cbn [vertex_xml view map fst snd seen] in K. injection K as _ K. eapply exact_V; eauto.
  - eapply enum_view; [|exact H3]. intros i j a b Ia Ib K. cbn [triangle_xml view map fst snd seen] in K. injection K as _ K. destruct HE as (_ & _ & _ & _ & HE). auto.
Qed.
Definition force_numbers (good : R -> Prop) (f : force) : Prop := match f with Gravity _ g up => good g /\ v_all good up | Damping _ a b => good a /\ good b end.
Lemma same_force_view p good f g : exact p good -> force_numbers good f -> force_numbers good g -> view (force_xml p f) = view (force_xml p g) -> f = g.
Proof.
  intros HE Gf Gg H. destruct f as [n a up|n a b], g as [m a' up'|m a' b']; cbn [force_xml view map fst snd seen force_numbers] in *; try discriminate.
  - injection H as -> Ha Hu. destruct Gf, Gg. f_equal; [destruct HE as (HE & _); auto|eapply exact_V; eauto].
  - injection H as -> Ha Hb. destruct Gf, Gg. destruct HE as (HE & _). f_equal; auto.
Qed.
Lemma same_interaction_view p good (a b : (name * name) * interaction) : exact p good ->
  plain (fst (fst a)) /\ plain (snd (fst a)) -> plain (fst (fst b)) /\ plain (snd (fst b)) ->
  v_all good (i_mu (snd a)) /\ good (i_eps (snd a)) -> v_all good (i_mu (snd b)) /\ good (i_eps (snd b)) ->
  view (interaction_xml p a) = view (interaction_xml p b) -> a = b.
Proof.
  intros HE [A1 A2] [B1 B2] [NA MA] [NB MB] H. destruct a as [[u v] [mu ep]], b as [[u' v'] [mu' ep']]. cbn [interaction_xml view map fst snd seen i_mu i_eps] in *.
  remember (tuple_text u v) as T1 eqn:ET1. remember (tuple_text u' v') as T2 eqn:ET2. injection H as Hk Hm He. assert (K : tuple_text u v = tuple_text u' v') by congruence. apply tuple_inj in K as [-> ->]; auto. f_equal. f_equal; [eapply exact_V; eauto|destruct HE as (HE & _); auto].
Qed.
Lemma same_hinge_view p good e1 e2 i j h k x y : exact p good ->
  (forall sp sc P, h_sockets h = Some (sp, sc) -> In P (e_bodies e1) -> b_name P = sk_body sp -> v_all good (anchor P sp) /\ v_all good (axis_w P sp)) ->
  (forall sp sc P, h_sockets k = Some (sp, sc) -> In P (e_bodies e2) -> b_name P = sk_body sp -> v_all good (anchor P sp) /\ v_all good (axis_w P sp)) ->
  hinge_xml p e1 (i, h) = Some x -> hinge_xml p e2 (j, k) = Some y -> view x = view y -> same_hinge e1 e2 h k.
Proof.
  intros HE G1 G2 Ex Ey H. unfold hinge_xml in *. cbn [fst snd] in *. destruct (h_sockets h) as [[sp sc]|] eqn:E1; [|discriminate]. destruct (h_sockets k) as [[tp tc]|] eqn:E2; [|discriminate]. cbn [fst snd] in *.
  destruct (find_body e1 (sk_body sp)) as [P|] eqn:EP; [|discriminate]. destruct (find_body e1 (sk_body sc)) as [C|] eqn:EC; [|discriminate].
  destruct (find_body e2 (sk_body tp)) as [P'|] eqn:EP'; [|discriminate]. destruct (find_body e2 (sk_body tc)) as [C'|] eqn:EC'; [|discriminate].
  injection Ex as <-. injection Ey as <-. cbn [view map fst snd seen] in H. apply find_body_in in EP as [IP NP], EC as [IC NC], EP' as [IP' NP'], EC' as [IC' NC'].
  destruct (G1 sp sc P eq_refl IP NP) as [V1 V2]. destruct (G2 tp tc P' eq_refl IP' NP') as [V3 V4].
  injection H as H1 H2 H3 H4 H5 H6 H7 H8. split; [exact H1|]. exists sp, sc, P, tp, tc, P'. repeat match goal with |- _ /\ _ => split end; auto; try congruence.
  - eapply exact_V; eauto.
  - eapply exact_V; eauto.
Qed.
Lemma same_params_view p good P Q : exact p good ->
  Forall good [p_time_step P; p_gap_reduction P; p_min_gap P; p_max_gap P; p_abs_tol P; p_rel_tol P; p_nu_reduce P; p_nu_increase P; p_small_merit P; p_opt_tol P; p_envelope P] ->
  Forall good [p_time_step Q; p_gap_reduction Q; p_min_gap Q; p_max_gap Q; p_abs_tol Q; p_rel_tol Q; p_nu_reduce Q; p_nu_increase Q; p_small_merit Q; p_opt_tol Q; p_envelope Q] ->
  map view (params_xml p P) = map view (params_xml p Q) -> P = Q.
Proof.
  intros (HR & _ & _ & HN & _) GP GQ H. rewrite !Forall_cons_iff in GP, GQ. destruct GP as (P1 & P2 & P3 & P4 & P5 & P6 & P7 & P8 & P9 & P10 & P11 & _), GQ as (Q1 & Q2 & Q3 & Q4 & Q5 & Q6 & Q7 & Q8 & Q9 & Q10 & Q11 & _). unfold params_xml, param_xml in H. cbn [view map fst snd seen] in H.
  injection H as H1 H2 H3 H4 H5 H6 H7 H8 H9 H10 H11 H12 H13 H14 H15 H16 H17 H18 H19.
  destruct P as [a1 a2 a3 a4 a5 a6 a7 a8 a9 a10 a11 a12 a13 a14 a15 a16 a17 a18 a19], Q as [b1 b2 b3 b4 b5 b6 b7 b8 b9 b10 b11 b12 b13 b14 b15 b16 b17 b18 b19]. cbn [p_time_step p_max_iterations p_use_bounce p_use_pre p_use_post p_gap_reduction p_min_gap p_max_gap p_abs_tol p_rel_tol p_nu_reduce p_nu_increase p_small_merit p_opt_iterations p_opt_tol p_chunk p_K p_envelope p_resolution] in *.
  assert (HB : forall a b : bool, pr_bool a = pr_bool b -> a = b) by (intros [] [] K; auto; discriminate).
  apply HN, Nat2Z.inj in H1. apply HR in H2; [|assumption..]. apply HN in H3. apply HN, Nat2Z.inj in H4. apply HR in H5; [|assumption..]. apply HR in H6; [|assumption..]. apply HR in H7; [|assumption..]. apply HR in H8; [|assumption..].
  apply HN, Nat2Z.inj in H9. apply HR in H10; [|assumption..]. apply HR in H11; [|assumption..]. apply HR in H12; [|assumption..]. apply HR in H13; [|assumption..].
  apply HN in H14. apply HR in H15; [|assumption..]. apply HR in H16; [|assumption..]. apply HB in H17, H18, H19.
  clear - H1 H2 H3 H4 H5 H6 H7 H8 H9 H10 H11 H12 H13 H14 H15 H16 H17 H18 H19. subst. reflexivity.
Qed.
(** Two engines (with plain materials) that look the same give the same file; and two that give the same file look the same, up to
    what printing hides of their numbers. *)
Theorem C152_same_scene eig sd ok p good e1 e2 f : reach eig sd ok e1 -> reach eig sd ok e2 -> exact p good -> numbers_are good e1 -> numbers_are good e2 ->
  plain_materials e1 -> plain_materials e2 -> write_xml p e1 = Some f -> write_xml p e2 = Some f -> same_scene e1 e2.
Proof.
  intros _ _ HE (N1 & N2 & N3 & N4 & N5 & N6) (M1 & M2 & M3 & M4 & M5 & M6) PL1 PL2 W1 W2. unfold write_xml in *.
  destruct (scene_xml p e1) as [x1|] eqn:E1; [|discriminate]. destruct (scene_xml p e2) as [x2|] eqn:E2; [|discriminate].
  assert (P1 : plain_tree x1) by (apply (scene_tree_all plain_value p e1 x1 E1); [intros s; exact I|exact PL1]).
  assert (P2 : plain_tree x2) by (apply (scene_tree_all plain_value p e2 x2 E2); [intros s; exact I|exact PL2]).
  pose proof (file_reads_det f _ _ (file_reads_view x1 P1 f W1) (file_reads_view x2 P2 f W2)) as H. clear W1 W2 P1 P2. unfold plain_materials in *.
  unfold scene_xml in E1, E2.
  destruct (map_some (body_xml p) (e_bodies e1)) as [bs1|] eqn:B1; [|discriminate]. destruct (map_some (hinge_xml p e1) (enumerate (e_hinges e1))) as [hs1|] eqn:H1; [|discriminate]. injection E1 as <-.
  destruct (map_some (body_xml p) (e_bodies e2)) as [bs2|] eqn:B2; [|discriminate]. destruct (map_some (hinge_xml p e2) (enumerate (e_hinges e2))) as [hs2|] eqn:H2; [|discriminate]. injection E2 as <-.
  cbn [view] in H. cbn [map view] in H.
  remember (map view (params_xml p (e_params e1))) as Q1 eqn:EQ1. remember (map view (params_xml p (e_params e2))) as Q2 eqn:EQ2. injection H as KB KF KS KM KH KP.
  apply map_some_forall2 in B1, B2, H1, H2. rewrite Forall_forall in N1, N2, N3, N4, M1, M2, M3, M4, PL1, PL2.
  split; [|split; [|split; [|split; [|split]]]].
  - refine (map_view_some _ _ same_body _ _ _ _ _ B1 B2 KB). intros a b x y Ia Ib Ex Ey. apply (same_body_view p good); auto; [apply N1|apply M1]; assumption.
  - apply forall2_eq. refine (map_view _ eq _ _ _ KF). intros a b Ia Ib. apply (same_force_view p good); auto; [apply N2|apply M2]; assumption.
  - refine (map_view _ same_shape _ _ _ KS). intros a b Ia Ib. apply (same_shape_view p good); auto.
  - apply forall2_eq. refine (map_view _ eq _ _ _ KM). intros a b Ia Ib. apply (same_interaction_view p good); auto.
  - assert (G : Forall2 (fun a b => same_hinge e1 e2 (snd a) (snd b)) (enumerate (e_hinges e1)) (enumerate (e_hinges e2))).
    { refine (map_view_some _ _ _ _ _ _ _ _ H1 H2 KH). intros [i h] [j k] x y Ia Ib Ex Ey. cbn [snd]. apply (same_hinge_view p good e1 e2 i j h k); auto.
      - intros sp sc P Es. eapply N5; eauto. rewrite <- (enumerate_snd (e_hinges e1)). change h with (snd (i, h)). apply in_map. exact Ia.
      - intros sp sc P Es. eapply M5; eauto. rewrite <- (enumerate_snd (e_hinges e2)). change k with (snd (j, k)). apply in_map. exact Ib. }
    rewrite <- (enumerate_snd (e_hinges e1)), <- (enumerate_snd (e_hinges e2)). revert G. generalize (enumerate (e_hinges e1)) (enumerate (e_hinges e2)). intros L M G. induction G; cbn [map]; constructor; auto.
  - exact (same_params_view p good (e_params e1) (e_params e2) HE N6 M6 (eq_trans (eq_sym EQ1) (eq_trans KP EQ2))).
Qed.
(** Conversely: contacts, the stepper, the distance fields, the bounding volumes and the child's side of a hinge are not in the file. *)
Lemma same_body_xml p b c : same_body b c -> body_xml p b = body_xml p c.
Proof.
  intros (H1 & H2 & H3 & H4 & H5 & H6 & H7 & H8 & H9 & H10 & H11 & H12). unfold body_xml. destruct (b_shape b) as [s|], (b_shape c) as [t|]; try discriminate; [|reflexivity].
  injection H11 as H11. rewrite H1, H2, H3, H4, H5, H6, H7, H8, H9, H10, H11. f_equal. f_equal. unfold apply_xml.
  assert (G : forall fs, map (fun f => Elem (lit "apply") [(lit "name", Str (force_name f))] []) fs = map (fun n => Elem (lit "apply") [(lit "name", Str n)] []) (map force_name fs)) by (intros fs; rewrite map_map; reflexivity).
  rewrite !G, H12. reflexivity.
Qed.
Lemma map_some_same {A B} (f g : A -> option B) l m : Forall2 (fun a b => f a = g b) l m -> map_some f l = map_some g m.
Proof. induction 1 as [|a b l m H F IH]; [reflexivity|]. cbn [map_some]. rewrite H, IH. reflexivity. Qed.
Lemma same_find e1 e2 n : Forall2 same_body (e_bodies e1) (e_bodies e2) ->
  (find_body e1 n = None /\ find_body e2 n = None) \/ exists P Q, find_body e1 n = Some P /\ find_body e2 n = Some Q /\ same_body P Q.
Proof.
  unfold find_body. induction 1 as [|b c l m H F IH]; cbn [find]; [auto|]. destruct H as (E & H). rewrite <- E. destruct (name_eqb (b_name b) n) eqn:K; [|exact IH].
  right. exists b, c. repeat split; try assumption; apply H.
Qed.
Lemma find_named {A} (nm : A -> name) l a : NoDup (map nm l) -> In a l -> find (fun b => name_eqb (nm b) (nm a)) l = Some a.
Proof.
  induction l as [|b l IH]; intros U K; [destruct K|]. destruct K as [->|K]; cbn [find map] in *.
  - rewrite name_eqb_refl. reflexivity.
  - inversion U as [|x y U1 U2]; subst. destruct (name_eqb_spec (nm b) (nm a)) as [E|E]; [|auto]. exfalso. apply U1. rewrite E. apply in_map. exact K.
Qed.
Theorem C152_same_file eig sd ok p e1 e2 : reach eig sd ok e1 -> reach eig sd ok e2 -> same_scene e1 e2 -> write_xml p e1 = write_xml p e2.
Proof.
  intros R1 R2 (SB & SF & SS & SL & SH & SP). pose proof (reach_wf _ _ _ _ R1) as W1. pose proof (reach_wf _ _ _ _ R2) as W2.
  unfold write_xml. assert (E : scene_xml p e1 = scene_xml p e2); [|rewrite E; reflexivity]. unfold scene_xml.
  rewrite (map_some_same (body_xml p) (body_xml p) (e_bodies e1) (e_bodies e2)) by (revert SB; apply forall2_mono; intros; apply same_body_xml; assumption).
  rewrite (map_some_same (hinge_xml p e1) (hinge_xml p e2) (enumerate (e_hinges e1)) (enumerate (e_hinges e2))).
  - rewrite SF, SL, SP. replace (map (shape_xml p) (e_shapes e1)) with (map (shape_xml p) (e_shapes e2)); [reflexivity|].
    clear - SS. induction SS as [|s t l m (H1 & H2 & H3) F IH]; [reflexivity|]. cbn [map]. rewrite IH. unfold shape_xml. rewrite H1, H2, H3. reflexivity.
  - assert (U1 : NoDup (map b_name (e_bodies e1))) by apply W1. assert (U2 : NoDup (map b_name (e_bodies e2))) by apply W2. clear W1 W2.
    unfold enumerate. rewrite (forall2_len _ _ _ SH). generalize 0%nat. clear SF SS SL SP. induction SH as [|h k l m H F IH]; intros j; cbn [length seq combine]; constructor; [|apply IH].
    destruct H as (Hn & sp & sc & P & tp & tc & Q & E1 & E2 & E3 & E4 & IP & NP & IQ & NQ & HA & HX). unfold hinge_xml. cbn [fst snd]. rewrite E1, E2. cbn [fst snd].
    assert (FP : find_body e1 (sk_body sp) = Some P) by (rewrite <- NP; apply (find_named b_name); assumption).
    assert (FQ : find_body e2 (sk_body tp) = Some Q) by (rewrite <- NQ; apply (find_named b_name); assumption).
    rewrite FP, FQ, E4. destruct (same_find e1 e2 (sk_body tc) SB) as [[-> ->]|(C & D & -> & -> & SC)]; [reflexivity|].
    assert (SPQ : same_body P Q). { destruct (same_find e1 e2 (sk_body sp) SB) as [[K _]|(P' & Q' & K1 & K2 & K3)]; [congruence|]. rewrite E3 in K2. congruence. }
    destruct SPQ as (S1 & S2 & _). destruct SC as (S3 & S4 & _). unfold anchor, axis_w in *. rewrite S1, S2, S3, S4, Hn, HA, HX. reflexivity.
Qed.

(** ** C153: hinges *)
(** The element of a hinge that set_hinge has attached gives, when written in mode "world" at once, the same links, the origin and
    the unit axis that were asked for. *)
Theorem C153_hinge eig sd ok p e hn pn cn o s mode e' f : reach eig sd ok e -> set_hinge e hn pn cn o s mode = Done e' -> plain_materials e' -> write_xml p e' = Some f ->
  exists t y x P ow sw, file_reads f t /\ part t "hinges" y /\ In x (children y) /\ find_body e pn = Some P /\ requested mode P o s ow sw /\
    attr x "name" hn /\ attr x "parent" pn /\ attr x "child" cn /\ attr x "mode" (lit "world") /\
    attr x "origin" (pr_V p ow) /\ attr x "axis" (pr_V p (vdiv sw (vnorm sw))).
Proof.
  intros HR HS HP HW. destruct (C59_set_hinge _ _ _ _ _ _ _ _ _ _ _ HR HS) as (P & C & h & sp & sc & ow & sw & A1 & A2 & A3 & A4 & A5 & A6 & A7 & A8 & A9 & A10 & A11 & A12 & A13 & A14 & A15 & _).
  destruct (C151_says p e' f HP HW) as (t & R & _ & HT). destruct HT as (_ & _ & _ & _ & _ & (y & Hy & HF) & _).
  apply (find_some h_name) in A5 as [Ih Nh]. destruct (In_nth_error _ _ Ih) as [i Ei]. destruct (forall2_nth _ _ _ _ _ HF Ei) as (x & Ex & Hx).
  destruct Hx as (sp' & sc' & P' & C' & E1 & IP & NP & IC & NC & T1 & T2 & T3 & T4 & T5 & T6 & T7 & T8 & T9). rewrite A6 in E1. injection E1 as <- <-.
  pose proof (reach_wf _ _ _ _ HR) as W. assert (U : NoDup (map b_name (e_bodies e))) by apply W.
  assert (P' = P). { rewrite A14 in IP. pose proof (find_named b_name _ _ U IP) as F. rewrite NP, A7 in F. unfold find_body in A1. congruence. } subst P'.
  exists t, y, x, P, ow, sw. apply nth_error_In in Ex. rewrite Nh in T2. rewrite NP, A7 in T3. rewrite NC, A8 in T5. rewrite A9 in T7. rewrite A11 in T8. repeat match goal with |- _ /\ _ => split end; assumption.
Qed.

(** ** what is not true *)
(** A scene whose material is called "a<" is written, but the file is no XML: nobody reads it.  One with a material called "&"
    raises although the scene is complete. *)
Theorem C151_refuted eig sd p : exists e1 f e2, reach eig sd (fun _ => True) e1 /\ complete e1 /\ write_xml p e1 = Some f /\ (forall t, ~ file_reads f t) /\
  reach eig sd (fun _ => True) e2 /\ complete e2 /\ write_xml p e2 = None.
Proof.
  assert (N : reach eig sd (fun _ => True) create_engine) by (constructor; exact I).
  assert (G : forall A B, exist_interaction library_init A B = false -> exists e, create_surfaces_interaction create_engine A B 0 vzero = Done e /\ reach eig sd (fun _ => True) e /\
    complete e /\ e_lib e = lib_set library_init (sorted_key A B) (mkInter vzero 0)).
  { intros A B E. eexists. assert (C : create_surfaces_interaction create_engine A B 0 vzero = Done (set_lib create_engine (lib_set library_init (sorted_key A B) (mkInter vzero 0)))).
    { unfold create_surfaces_interaction. cbn [e_lib create_engine]. rewrite E. assert (Z : Rltb 0 0 = false) by (apply Rltb_false; lra). cbn [vzero vx vy vz]. rewrite Z. reflexivity. }
    split; [exact C|]. split; [apply (reach_done _ _ _ (CreateInteraction A B 0 vzero) create_engine); [exact N|exact I|exact C]|]. split; [split; constructor|reflexivity]. }
  destruct (G (lit "a<") (lit "b") eq_refl) as (e1 & _ & R1 & C1 & L1). destruct (G (lit "&") (lit "b") eq_refl) as (e2 & _ & R2 & C2 & L2).
  destruct (proj2 (C151_written eig sd _ p e1 R1)) as [f W].
  { split; [exact C1|]. rewrite L1. assert (B : forall m, (2 <= length m)%nat \/ m = lit "b" -> ~ bad_material m).
    { intros m [H|K0] (c & E & K); [rewrite E in H; cbn in H; lia|]. rewrite K0 in E. injection E as <-. cbn in K. repeat (destruct K as [K|K]; [discriminate|]). exact K. }
    change (lib_set library_init (sorted_key (lit "a<") (lit "b")) (mkInter vzero 0)) with [((default_name, default_name), interaction_init); ((lit "a<", lit "b"), mkInter vzero 0)].
    repeat (apply Forall_cons; [cbn [fst snd]; split; apply B; first [left; cbn; lia|right; reflexivity]|]). apply Forall_nil. }
  exists e1, f, e2. split; [exact R1|]. split; [exact C1|]. split; [exact W|]. split.
  - intros t R. unfold write_xml in W. destruct (scene_xml p e1) as [x|] eqn:E; [|discriminate]. unfold scene_xml in E.
    destruct (map_some (body_xml p) (e_bodies e1)) as [bs|]; [|discriminate]. destruct (map_some (hinge_xml p e1) (enumerate (e_hinges e1))) as [hs|]; [|discriminate]. injection E as <-. rewrite L1 in W.
    rewrite file_of_eq in W. cbn [map_some] in W. destruct (file_of (Elem (lit "bodies") [] bs)) as [f1|]; [|discriminate].
    destruct (file_of (Elem (lit "forces") [] _)) as [f2|]; [|discriminate]. destruct (file_of (Elem (lit "shapes") [] _)) as [f3|]; [|discriminate].
    destruct (file_of (Elem (lit "materials") [] _)) as [f4|] eqn:E4; [|discriminate]. destruct (file_of (Elem (lit "hinges") [] hs)) as [f5|]; [|discriminate]. destruct (file_of (Elem (lit "params") [] _)) as [f6|]; [|discriminate].
    injection W as <-. inversion R as [t1 a1 b1 c1 d1 A1 F1]; subst. inversion F1 as [|u1 v1 l1 m1 _ F2]; subst. inversion F2 as [|u2 v2 l2 m2 _ F3]; subst. inversion F3 as [|u3 v3 l3 m3 _ F4]; subst. inversion F4 as [|u4 v4 l4 m4 R4 _]; subst. clear R F1 F2 F3 F4 A1.
    revert E4. change (lib_set library_init (sorted_key (lit "a<") (lit "b")) (mkInter vzero 0)) with [((default_name, default_name), interaction_init); ((lit "a<", lit "b"), mkInter vzero 0)].
    cbn [map]. rewrite file_of_eq. cbn [map_some]. unfold interaction_xml at 2. rewrite !file_of_eq. cbn [map_some]. unfold attr_pair. cbn [fst snd].
    destruct (file_of (interaction_xml p (default_name, default_name, interaction_init))) as [g1|]; [|discriminate].
    assert (T : attr_text (Pair (lit "a<") (lit "b")) = Some (lit "('a<', 'b')")) by reflexivity. rewrite T. cbn [attr_text]. intros [= <-].
    inversion R4 as [t4 a4 b4 c4 d4 _ F1]; subst. inversion F1 as [|u5 v5 l5 m5 _ F2]; subst. inversion F2 as [|u6 v6 l6 m6 R6 _]; subst. inversion R6 as [t6 a6 b6 c6 d6 A6 _]; subst. inversion A6 as [|u7 v7 l7 m7 [_ R7] _]; subst. cbn [snd] in R7.
    apply (reads_no_lt _ _ R7). cbn. auto 10.
  - split; [exact R2|]. split; [exact C2|]. destruct (write_xml p e2) as [g|] eqn:W2; [|reflexivity]. exfalso.
    destruct (proj1 (C151_written eig sd _ p e2 R2)) as [_ K]; [eauto|]. rewrite L2 in K.
    change (lib_set library_init (sorted_key (lit "&") (lit "b")) (mkInter vzero 0)) with [((default_name, default_name), interaction_init); ((lit "&", lit "b"), mkInter vzero 0)] in K.
    inversion K as [|u l _ K2]; subst. inversion K2 as [|u' l' [K3 _] _]; subst. apply K3. exists 38%nat. split; [reflexivity|left; reflexivity].
Qed.
(** Printing rounds (np.array2string shows eight digits): if two vectors are printed alike, there are two scenes with a body at one
    and at the other, and the same file. *)
Theorem C152_refuted sd p v w : v <> w -> pr_V p v = pr_V p w ->
  exists e1 e2 b1 b2 f, reach diag_eig sd sane_params e1 /\ reach diag_eig sd sane_params e2 /\ e_bodies e1 = [b1] /\ e_bodies e2 = [b2] /\
    b_r b1 = v /\ b_r b2 = w /\ ~ same_scene e1 e2 /\ write_xml p e1 = Some f /\ write_xml p e2 = Some f.
Proof.
  intros N E. destruct (scene_full_lib sd) as (e & b & s & HR & _ & EB & _ & EN & Es & EL & EH & EF & ES).
  assert (G : forall u, set_position e nA u false = Done (upd_body e nA (fun b => with_pose b u (b_q b)))).
  { intros u. unfold set_position. replace (find_body e nA) with (Some b); [reflexivity|]. unfold find_body. rewrite EB. cbn [find]. rewrite EN. reflexivity. }
  assert (RG : forall u, reach diag_eig sd sane_params (upd_body e nA (fun b => with_pose b u (b_q b)))).
  { intros u. apply (reach_done _ _ _ (SetPosition nA u false) e); [exact HR|exact I|apply G]. }
  assert (BG : forall u, e_bodies (upd_body e nA (fun b => with_pose b u (b_q b))) = [with_pose b u (b_q b)]).
  { intros u. cbn [upd_body set_bodies e_bodies]. rewrite EB. cbn [map]. rewrite EN. reflexivity. }
  destruct (proj2 (C151_written diag_eig sd sane_params p _ (RG v))) as [f W].
  { split.
    - split; [rewrite BG; apply Forall_cons; [cbn; congruence|apply Forall_nil]|cbn [upd_body set_bodies e_hinges]; rewrite EH; apply Forall_nil].
    - cbn [upd_body set_bodies e_lib]. rewrite EL. unfold library_init. apply Forall_cons; [|apply Forall_nil]. cbn [fst snd]. split; intros (c & K & _); discriminate. }
  eexists _, _, _, _, f. split; [apply (RG v)|]. split; [apply (RG w)|]. split; [apply BG|]. split; [apply BG|]. split; [reflexivity|]. split; [reflexivity|]. split; [|split; [exact W|]].
  - intros (SB & _). rewrite !BG in SB. inversion SB as [|x y l m H _]; subst. apply N. apply H.
  - rewrite <- W. unfold write_xml. assert (K : scene_xml p (upd_body e nA (fun b => with_pose b w (b_q b))) = scene_xml p (upd_body e nA (fun b => with_pose b v (b_q b)))); [|rewrite K; reflexivity].
    unfold scene_xml. rewrite !BG. cbn [map_some]. unfold body_xml. cbn [with_pose b_shape b_name b_idx b_r b_q b_v b_w b_mass b_inertia b_fixed b_material b_forces]. rewrite E. cbn [upd_body set_bodies e_hinges]. rewrite EH. reflexivity.
Qed.

(** ** nonvacuity *)
Fixpoint index (x : R) (L : list R) : nat := match L with [] => 0 | y :: t => if Req_EM_T x y then 0 else S (index x t) end%nat.
Lemma index_inj x y L : In x L -> In y L -> index x L = index y L -> x = y.
Proof.
  induction L as [|z L IH]; intros Hx Hy H; [destruct Hx|]. cbn [index] in H. destruct (Req_EM_T x z), (Req_EM_T y z); try congruence; try discriminate.
  injection H as H. destruct Hx as [Hx|Hx]; [congruence|]. destruct Hy as [Hy|Hy]; [congruence|]. auto.
Qed.
Definition enc_Z (z : Z) : name := if (z <? 0)%Z then [1%nat; Z.to_nat (- z)] else [0%nat; Z.to_nat z].
Lemma enc_Z_inj a b : enc_Z a = enc_Z b -> a = b.
Proof. unfold enc_Z. destruct (Z.ltb_spec a 0), (Z.ltb_spec b 0); intros H1; try discriminate; injection H1; lia. Qed.
Definition list_printer (L : list R) : printer :=
  mkPrinter (fun x => [index x L]) (fun v => [index (vx v) L; index (vy v) L; index (vz v) L])
    (fun q => [index (qs q) L; index (qx q) L; index (qy q) L; index (qz q) L]) enc_Z (fun t => let '(i, j, k) := t in enc_Z i ++ enc_Z j ++ enc_Z k).
Lemma list_printer_exact L : exact (list_printer L) (fun x => In x L).
Proof.
  unfold exact, list_printer. cbn [pr_R pr_V pr_Q pr_N pr_T vx vy vz qs qx qy qz]. split; [|split; [|split; [|split]]].
  - intros x y Hx Hy [= H]. eapply index_inj; eauto.
  - intros a b c a' b' c' A B C A' B' C' [= H1 H2 H3]. split; [|split]; eapply index_inj; eauto.
  - intros a b c d a' b' c' d' A B C D A' B' C' D' [= H1 H2 H3 H4]. split; [|split; [|split]]; eapply index_inj; eauto.
  - apply enc_Z_inj.
  - intros [[i j] k] [[i' j'] k'] H. assert (LZ : forall z, exists a b, enc_Z z = [a; b]) by (intros z; unfold enc_Z; destruct (z <? 0)%Z; eauto).
    destruct (LZ i) as (a1 & a2 & E1), (LZ j) as (a3 & a4 & E2), (LZ k) as (a5 & a6 & E3), (LZ i') as (b1 & b2 & F1), (LZ j') as (b3 & b4 & F2), (LZ k') as (b5 & b6 & F3).
    rewrite E1, E2, E3, F1, F2, F3 in H. cbn [app] in H. injection H as <- <- <- <- <- <-.
    assert (i = i') by (apply enc_Z_inj; congruence). assert (j = j') by (apply enc_Z_inj; congruence). assert (k = k') by (apply enc_Z_inj; congruence). congruence.
Qed.
Definition v_list (v : vec3) : list R := [vx v; vy v; vz v].
Lemma v_all_in v L : incl (v_list v) L -> v_all (fun x => In x L) v.
Proof. intros H. split; [|split]; apply H; cbn; auto. Qed.
(** a scene with a body and an exact printer *)
Example C152_nonvacuous sd : exists p good e f, reach diag_eig sd sane_params e /\ length (e_bodies e) = 1%nat /\ exact p good /\ numbers_are good e /\ plain_materials e /\ write_xml p e = Some f.
Proof.
  destruct (scene_full_lib sd) as (e & b & s & HR & _ & EB & _ & EN & Es & EL & EH & EF & ES).
  set (P := e_params e).
  set (L := [p_time_step P; p_gap_reduction P; p_min_gap P; p_max_gap P; p_abs_tol P; p_rel_tol P; p_nu_reduce P; p_nu_increase P; p_small_merit P; p_opt_tol P; p_envelope P] ++
    [0; 1] ++ v_list (b_r b) ++ [qs (b_q b); qx (b_q b); qy (b_q b); qz (b_q b)] ++ v_list (b_v b) ++ v_list (b_w b) ++ [b_mass b] ++ v_list (b_inertia b) ++ flat_map v_list (sh_V s)).
  assert (I0 : forall l m : list R, incl l (l ++ m)) by (intros; apply incl_appl, incl_refl).
  assert (NUM : numbers_are (fun x => In x L) e).
  { unfold numbers_are. rewrite EB, EF, EH, ES, EL. split; [|split; [|split; [|split; [|split]]]].
    - apply Forall_cons; [|apply Forall_nil]. unfold v_all, q_all.
      repeat match goal with |- _ /\ _ => split end; unfold L; cbn [v_list app In]; clear; repeat first [left; reflexivity|right].
    - apply Forall_nil.
    - apply Forall_cons; [|apply Forall_nil]. apply Forall_forall. intros v Hv. apply v_all_in. intros x Hx. unfold L. do 8 (apply in_or_app; right). apply in_flat_map. exists v. auto.
    - unfold library_init. apply Forall_cons; [|apply Forall_nil]. cbn [snd interaction_init i_mu i_eps]. unfold v_all. cbn [vx vy vz]. repeat match goal with |- _ /\ _ => split end; unfold L; apply in_or_app; right; cbn [app In]; clear; first [left; reflexivity|right; left; reflexivity].
    - intros h sp sc Q [].
    - apply Forall_forall. intros x Hx. unfold L. apply in_or_app. left. exact Hx. }
  assert (PM : plain_materials e).
  { unfold plain_materials. rewrite EL. unfold library_init. apply Forall_cons; [|apply Forall_nil]. cbn [fst snd]. assert (PD : plain default_name) by (unfold default_name; repeat (apply Forall_cons; [unfold plain_char; lia|]); apply Forall_nil). auto. }
  destruct (proj2 (C151_written diag_eig sd sane_params (list_printer L) _ HR)) as [f W].
  { split.
    - split; [rewrite EB; apply Forall_cons; [congruence|apply Forall_nil]|rewrite EH; apply Forall_nil].
    - rewrite EL. unfold library_init. apply Forall_cons; [|apply Forall_nil]. cbn [fst snd]. split; intros (c & K & _); discriminate. }
  exists (list_printer L), (fun x => In x L), e, f. split; [exact HR|]. split; [rewrite EB; reflexivity|]. split; [apply list_printer_exact|]. split; [exact NUM|]. split; [exact PM|exact W].
Qed.
(** two bodies and a hinge between them *)
Example C153_nonvacuous sd p : exists e e' f, reach diag_eig sd sane_params e /\ set_hinge e [72%nat] nA [66%nat] (mkV 1 2 3) (mkV 0 2 0) World = Done e' /\
  length (e_bodies e') = 2%nat /\ length (e_hinges e') = 1%nat /\ plain_materials e' /\ write_xml p e' = Some f.
Proof.
  destruct (scene_full_lib sd) as (e & b & s & HR & _ & EB & _ & EN & Es & EL & EH & EF & ES).
  set (e1 := set_bodies e [b; body_init [66%nat] 1]).
  assert (R1 : reach diag_eig sd sane_params e1).
  { apply (reach_done _ _ _ (CreateBody [66%nat]) e); [exact HR|exact I|]. cbn [run_call]. unfold create_rigid_body, find_body. rewrite EB. cbn [find]. rewrite EN. exact eq_refl. }
  assert (B1 : e_bodies e1 = [b; body_init [66%nat] 1]) by reflexivity.
  assert (S1 : e_shapes e1 = [s]) by exact ES.
  destruct (connect_shape_cases e1 [66%nat] (sh_name s) (reach_made _ _ _ R1)) as [(b' & s' & t & Hb & Hs & EC & _)|EC].
  2:{ exfalso. destruct (C83_connect_shape_partial _ _ _ _ _ _ R1 EC) as [_ [N|N]]; apply N; [rewrite B1; right; left; reflexivity|rewrite S1; left; reflexivity]. }
  set (e2 := upd_body e1 [66%nat] (fun b => with_shape b s' (Some t))) in *.
  assert (R2 : reach diag_eig sd sane_params e2) by (apply (reach_done _ _ _ (ConnectShape [66%nat] (sh_name s)) e1); [exact R1|exact I|exact EC]).
  assert (B2 : e_bodies e2 = [b; with_shape (body_init [66%nat] 1) s' (Some t)]).
  { unfold e2. cbn [upd_body set_bodies e_bodies]. rewrite B1. cbn [map]. rewrite EN. reflexivity. }
  set (e3 := set_hinges e2 [mkHinge [72%nat] 0 None]).
  assert (R3 : reach diag_eig sd sane_params e3).
  { apply (reach_done _ _ _ (CreateHinge [72%nat]) e2); [exact R2|exact I|]. cbn [run_call]. unfold create_hinge, find_hinge. replace (e_hinges e2) with (@nil hinge) by (symmetry; exact EH). reflexivity. }
  assert (B3 : e_bodies e3 = e_bodies e2) by reflexivity.
  assert (FA : find_body e3 nA = Some b) by (unfold find_body; rewrite B3, B2; cbn [find]; rewrite EN; reflexivity).
  destruct (proj2 (C59_when diag_eig sd _ e3 [72%nat] nA [66%nat] (mkV 1 2 3) (mkV 0 2 0) World R3)) as [e' H].
  { split; [left; reflexivity|]. split; [rewrite B3, B2; right; left; reflexivity|]. exists b, (mkV 1 2 3), (mkV 0 2 0). split; [exact FA|]. split; [split; reflexivity|].
    intros E. apply (f_equal vy) in E. cbn in E. lra. }
  assert (R4 : reach diag_eig sd sane_params e') by (apply (reach_done _ _ _ (SetHinge [72%nat] nA [66%nat] (mkV 1 2 3) (mkV 0 2 0) World) e3); [exact R3|exact I|exact H]).
  destruct (C59_set_hinge _ _ _ _ _ _ _ _ _ _ _ R3 H) as (P & C & h & sp & sc & ow & sw & _ & _ & _ & _ & FH & ESK & _ & _ & _ & _ & _ & _ & _ & EB' & EM & _).
  assert (L' : e_lib e' = library_init).
  { revert H. unfold set_hinge. destruct (find_hinge e3 [72%nat]); [|discriminate]. rewrite FA. destruct (find_body e3 [66%nat]); [|discriminate]. cbn [hinge_world].
    destruct (make_orthonormal_vectors (mkV 0 2 0)) as [[[? ?] ?]|]; [|discriminate]. destruct (q_from_matrix _); [|discriminate]. intros H. apply done_eq in H. subst e'. exact EL. }
  assert (LH : length (e_hinges e') = 1%nat). { rewrite <- (map_length h_name), EM. reflexivity. }
  assert (PM : plain_materials e').
  { unfold plain_materials. rewrite L'. unfold library_init. apply Forall_cons; [|apply Forall_nil]. cbn [fst snd]. assert (PD : plain default_name) by (unfold default_name; repeat (apply Forall_cons; [unfold plain_char; lia|]); apply Forall_nil). split; exact PD. }
  destruct (proj2 (C151_written diag_eig sd sane_params p _ R4)) as [f W].
  { split; [split|].
    - rewrite EB', B3, B2. apply Forall_cons; [congruence|]. apply Forall_cons; [cbn; discriminate|apply Forall_nil].
    - apply (find_some h_name) in FH as [IH _]. destruct (e_hinges e') as [|h0 [|]]; try discriminate. destruct IH as [<-|[]]. apply Forall_cons; [congruence|apply Forall_nil].
    - rewrite L'. unfold library_init. apply Forall_cons; [|apply Forall_nil]. cbn [fst snd]. split; intros (c & K & _); discriminate. }
  exists e3, e', f. split; [exact R3|]. split; [exact H|]. split; [rewrite EB', B3, B2; reflexivity|]. split; [exact LH|]. split; [exact PM|exact W].
Qed.
Print Assumptions C151_says.
Print Assumptions C151_strings.
Print Assumptions C151_written.
Print Assumptions C151_refuted.
Print Assumptions C152_same_scene.
Print Assumptions C152_same_file.
Print Assumptions C152_refuted.
Print Assumptions C153_hinge.
