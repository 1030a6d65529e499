(** C140: a chain of cubes joined by hinges. *)
From Verif Require Import Base QuatModel QuatProofs VecModel VecProofs BvhModel BvhSpec GridModel VolModel RigidTypes RigidSpec CollModel BaryModel MassModel MassSpec MassProofs MassProofs2 Prop_Mass
  StepModel StepProofs StepProofs2 ReadySpec ReadyProofs ConSpec ApiModel ApiSpec ApiProofs RotModel RotProofs QuatMatProofs Prop_Rotation Prop_Api Prop_Api2
  SurfModel SurfSpec SceneModel SceneSpec SceneMesh SceneProofs SceneShape SceneBox ScenePlace Prop_Scene.
From Coq Require Import Permutation.
Open Scope R_scope.

(** the hinge h joins the bodies p and c halfway between their positions, turns about the z-axis, and is closed *)
Definition joins (e : engine) (p c : name) (h : hinge) : Prop :=
  exists P C sp sc, find_body e p = Some P /\ find_body e c = Some C /\ h_sockets h = Some (sp, sc) /\ sk_body sp = p /\ sk_body sc = c /\
    anchor P sp = vscale (1/2) (vadd (b_r P) (b_r C)) /\ anchor C sc = vscale (1/2) (vadd (b_r P) (b_r C)) /\
    axis_w P sp = mkV 0 0 1 /\ axis_w C sc = mkV 0 0 1 /\ hinge_gap e h = Some (vzero, 0, 0).
Lemma set_hinges_self e : set_hinges e (e_hinges e) = e.
Proof. destruct e; reflexivity. Qed.
Lemma chain_hinge_ok eig sd e p c : reach eig sd sane_params e -> ~ In (hinge_between p c) (map h_name (e_hinges e)) ->
  In p (map b_name (e_bodies e)) -> In c (map b_name (e_bodies e)) ->
  exists h, chain_hinge p c e = Done (set_hinges e (e_hinges e ++ [h])) /\ reach eig sd sane_params (set_hinges e (e_hinges e ++ [h])) /\
    h_name h = hinge_between p c /\ joins e p c h.
Proof.
  intros HR HN Hp Hc. set (hn := hinge_between p c) in *.
  assert (FN : find_hinge e hn = None). { unfold find_hinge. destruct (find _ (e_hinges e)) as [h|] eqn:E; auto. exfalso. apply (find_some h_name) in E as [H1 H2]. apply HN. rewrite <- H2. apply in_map. exact H1. }
  set (e1 := set_hinges e (e_hinges e ++ [mkHinge hn (length (e_hinges e)) None])).
  assert (EC : create_hinge e hn = Done e1) by (unfold create_hinge; rewrite FN; reflexivity).
  assert (R1 : reach eig sd sane_params e1). { apply (reach_done _ _ _ (CreateHinge hn) e); [auto|exact I|exact EC]. }
  assert (exists P, find_body e p = Some P) as [P EP]. { unfold find_body. destruct (find _ (e_bodies e)) as [b|] eqn:E; eauto. exfalso. apply (find_none b_name) in E. auto. }
  assert (exists C, find_body e c = Some C) as [C ECc]. { unfold find_body. destruct (find _ (e_bodies e)) as [b|] eqn:E; eauto. exfalso. apply (find_none b_name) in E. auto. }
  assert (EP1 : find_body e1 p = Some P) by exact EP. assert (EC1 : find_body e1 c = Some C) by exact ECc.
  set (o := vdiv (vadd (b_r P) (b_r C)) 2).
  destruct (proj2 (C59_when eig sd sane_params e1 hn p c o v3_k World R1)) as (e2 & E2).
  { split; [cbn; rewrite map_app, in_app_iff; right; left; reflexivity|]. split; [exact Hc|]. exists P, o, v3_k. split; [exact EP1|]. split; [split; reflexivity|]. unfold v3_k, vzero. intros H. injection H. lra. }
  assert (R2 : reach eig sd sane_params e2). { apply (reach_done _ _ _ (SetHinge hn p c o v3_k World) e1); [auto|exact I|exact E2]. }
  destruct (C59_set_hinge eig sd sane_params e1 hn p c o v3_k World e2 R1 E2) as (P' & C' & h & sp & sc & ow & sw & F1 & F2 & (-> & ->) & _ & FH & HS & S1 & S2 & A1 & A2 & X1 & X2 & HG & EB & _ & _).
  rewrite EP1 in F1. apply some_eq in F1. subst P'. rewrite EC1 in F2. apply some_eq in F2. subst C'.
  assert (EH : e2 = set_hinges e (e_hinges e ++ [h])).
  { unfold set_hinge in E2. destruct (find_hinge e1 hn) as [h1|]; [|discriminate]. rewrite EP1, EC1 in E2. cbn [hinge_world] in E2. destruct (make_orthonormal_vectors v3_k) as [[[t b] n]|]; [|discriminate].
    destruct (q_from_matrix (make_from_cols t b n)) as [q|]; [|discriminate]. apply done_eq in E2. subst e2. unfold e1 in *. cbn [e_hinges set_hinges] in *. rewrite map_app in *. cbn [map] in *. cbn [h_name] in *. rewrite name_eqb_refl in *.
    assert (G : map (fun h' => if name_eqb (h_name h') hn then mkHinge (h_name h') (h_idx h') (Some (make_socket P o q, make_socket C o q)) else h') (e_hinges e) = e_hinges e).
    { clear - HN. induction (e_hinges e) as [|x l IH]; cbn; auto. cbn in HN. rewrite name_eqb_neq by tauto. f_equal. apply IH. tauto. }
    rewrite G in *. unfold find_hinge in FH. cbn [e_hinges set_hinges] in FH. rewrite (find_app_r h_name) in FH by exact HN. cbn in FH. rewrite name_eqb_refl in FH. apply some_eq in FH. rewrite <- FH. unfold set_hinges. reflexivity. }
  exists h. split; [|split; [rewrite <- EH; exact R2|]].
  - unfold chain_hinge. fold hn. rewrite EC. cbn [andthen]. unfold get_position. rewrite EP1, EC1. cbn [option_map]. fold o. rewrite <- EH. exact E2.
  - split. { unfold find_hinge in FH. apply (find_some h_name) in FH. apply FH. }
    exists P, C, sp, sc. split; [exact EP|]. split; [exact ECc|]. split; [exact HS|]. split; [exact S1|]. split; [exact S2|].
    assert (EO : o = vscale (1/2) (vadd (b_r P) (b_r C))). { unfold o, vdiv, vscale. destruct (vadd (b_r P) (b_r C)). cbn. f_equal; field. }
    assert (EX : vdiv v3_k (vnorm v3_k) = mkV 0 0 1). { assert (N1 : vnorm v3_k = 1) by (unfold vnorm, v3_k, vdot; cbn; replace (0 * 0 + 0 * 0 + 1 * 1) with 1 by ring; apply sqrt_1). rewrite N1. unfold vdiv, v3_k; cbn. f_equal; field. }
    rewrite A1, A2, X1, X2, EX, <- EO. repeat (split; [reflexivity|]). rewrite <- HG. rewrite EH. unfold hinge_gap. reflexivity.
Qed.
Lemma joins_same e e' p c h : e_bodies e' = e_bodies e -> joins e p c h -> joins e' p c h.
Proof.
  intros E (P & C & sp & sc & H1 & H2 & H3 & H4 & H5 & H6 & H7 & H8 & H9 & H10). assert (FB : forall n, find_body e' n = find_body e n) by (intros n; unfold find_body; rewrite E; reflexivity).
  exists P, C, sp, sc. rewrite !FB. do 9 (split; [assumption|]). unfold hinge_gap in *. rewrite H3 in *. rewrite !FB. exact H10.
Qed.
Lemma chain_hinges_ok eig sd : forall l e, reach eig sd sane_params e -> NoDup (map (fun pc => hinge_between (fst pc) (snd pc)) l) ->
  (forall pc, In pc l -> ~ In (hinge_between (fst pc) (snd pc)) (map h_name (e_hinges e)) /\ In (fst pc) (map b_name (e_bodies e)) /\ In (snd pc) (map b_name (e_bodies e))) ->
  exists hs, each (fun pc => chain_hinge (fst pc) (snd pc)) l e = Done (set_hinges e (e_hinges e ++ hs)) /\ reach eig sd sane_params (set_hinges e (e_hinges e ++ hs)) /\
    Forall2 (fun pc h => h_name h = hinge_between (fst pc) (snd pc) /\ joins e (fst pc) (snd pc) h) l hs.
Proof.
  induction l as [|[p c] l IH]; intros e HR ND HA.
  - exists []. rewrite app_nil_r, set_hinges_self. split; [reflexivity|]. split; [auto|constructor].
  - destruct (HA (p, c) (or_introl eq_refl)) as (H1 & H2 & H3). cbn [fst snd] in *. destruct (chain_hinge_ok eig sd e p c HR H1 H2 H3) as (h & E & R1 & EN & HJ).
    cbn [each fst snd]. rewrite E. cbn [andthen]. inversion ND as [|x l0 NI ND']; subst.
    destruct (IH (set_hinges e (e_hinges e ++ [h])) R1 ND') as (hs & E' & R2 & F).
    { intros pc Hpc. destruct (HA pc (or_intror Hpc)) as (G1 & G2 & G3). split; [|split; [exact G2|exact G3]]. cbn. rewrite map_app, in_app_iff. intros [H|[H|[]]]; [exact (G1 H)|].
      apply NI. cbn [fst snd]. rewrite <- EN, H. apply (in_map (fun pc => hinge_between (fst pc) (snd pc))). exact Hpc. }
    rewrite E'. cbn [e_hinges set_hinges] in *. rewrite <- app_assoc in *. exists (h :: hs). split; [reflexivity|]. split; [exact R2|]. constructor; [split; [exact EN|exact HJ]|].
    clear - F. induction F as [|pc h' l hs [A B] F IH]; constructor; auto.
Qed.

Lemma f2_len {A B} {P : A -> B -> Prop} {l l'} : Forall2 P l l' -> length l = length l'.
Proof. induction 1; cbn; congruence. Qed.
Lemma built_any e (fx : bool) mat density l bs : Forall2 (built e fx mat density) l bs -> Forall2 (fun x b => exists fx, built e fx mat density x b) l bs.
Proof. induction 1; constructor; eauto. Qed.
Lemma q_rotate_zero0 q : q_rotate q vzero = vzero.
Proof. rewrite q_rotate_formula. destruct q as [s0 a b c]. qunf. f_equal; ring. Qed.
Lemma Rz_unit t : is_unit (q_Rz t).
Proof. unfold is_unit, q_Rz, qdot; cbn. pose proof (sin2_cos2 (t / 2)) as H. unfold Rsqr in H. lra. Qed.
Lemma Rz_rotate t v : q_rotate (q_Rz t) v = mkV (vx v * cos t - vy v * sin t) (vx v * sin t + vy v * cos t) (vz v).
Proof.
  assert (EC : cos t = cos (t / 2) * cos (t / 2) - sin (t / 2) * sin (t / 2)). { rewrite <- cos_plus. f_equal. field. }
  assert (ES : sin t = 2 * (sin (t / 2) * cos (t / 2))). { replace t with (2 * (t / 2)) at 1 by field. rewrite sin_2a. ring. }
  pose proof (sin2_cos2 (t / 2)) as H. unfold Rsqr in H. rewrite EC, ES. destruct v as [x y z].
  clear EC ES. set (c := cos (t / 2)) in *. set (s := sin (t / 2)) in *. 
  cbv [q_rotate q_Rz q_prod q_conj qvec vadd vscale vdot vcross vx vy vz qs qx qy qz]. fold c s. apply (f_equal3 mkV); [ring|ring|]. transitivity (z * (s * s + c * c)); [ring|rewrite H; ring].
Qed.
Lemma chain_diameter_eq a : 0 <= a -> chain_diameter a = sqrt 2 * a.
Proof. intros H. unfold chain_diameter. rewrite sqrt_mult by nra. rewrite sqrt_square by auto. reflexivity. Qed.
Lemma chain_x_eq a K k : 0 <= a -> chain_x a K k = (INR k - (INR K - 1) / 2) * (21 / 20) * (sqrt 2 * a).
Proof. intros H. unfold chain_x, chain_length, chain_margin. rewrite chain_diameter_eq by auto. field. Qed.
Lemma box_centre w h d s : 0 < w -> 0 < h -> 0 < d -> is_shape_of s (boxV w h d) (boxT w h d) -> sh_r s = vzero.
Proof.
  intros Hw Hh Hd (_ & (_ & HC) & _). assert (G : forall i, (i < 3)%nat -> comp (sh_r s) i = 0).
  { intros i Hi. specialize (HC i Hi). rewrite box_first in HC by auto. apply (abs_clamp_0 (0 / volume (boxV w h d) (boxT w h d))); [unfold Rdiv; ring|exact HC]. }
  pose proof (G 0%nat ltac:(lia)). pose proof (G 1%nat ltac:(lia)). pose proof (G 2%nat ltac:(lia)). destruct (sh_r s). cbn in *. unfold vzero. congruence.
Qed.
Lemma seq_S K : seq 0 (S K) = 0%nat :: map S (seq 0 K).
Proof. cbn. rewrite seq_shift. reflexivity. Qed.
(** the names of the hinges are new too *)
Definition new_hinges (e : engine) (fresh : nat -> name) : Prop :=
  (forall i j, hinge_between (fresh i) (fresh (S i)) = hinge_between (fresh j) (fresh (S j)) -> i = j) /\
  (forall i, ~ In (hinge_between (fresh i) (fresh (S i))) (map h_name (e_hinges e))).

Theorem C140_chain eig sd e fresh a K density mat : eig_diagonal eig -> reach eig sd sane_params e -> (2 <= p_resolution (e_params e))%Z ->
  new_names e fresh -> new_hinges e fresh -> exist_material (e_lib e) mat = true -> 0 < a -> (1 <= K)%nat ->
  let x k := (INR k - (INR K - 1) / 2) * (21 / 20) * (sqrt 2 * a) in
  exists e' names, create_cube_hinge_chain eig sd fresh a K density mat e = (Done e', names) /\ reach eig sd sane_params e' /\
    adds e e' names /\ length names = K /\ NoDup names /\
    (* the cubes *)
    (forall k n, nth_error names k = Some n ->
       stands e' n (create_box a a a) (mkV (x k) 0 0) (q_Rz (PI / 4)) /\ get_position e' n = Some (mkV (x k) 0 0) /\
       exists m, pos_up_to_clamp (a * a * a) m /\ at_rest e' n (Nat.eqb k 0) mat (m * density)) /\
    (* the hinges *)
    length (e_hinges e') = (length (e_hinges e) + (K - 1))%nat /\
    (forall m, In m (map h_name (e_hinges e)) -> find_hinge e' m = find_hinge e m) /\
    (forall k p c, nth_error names k = Some p -> nth_error names (S k) = Some c ->
       exists h, find_hinge e' (hinge_between p c) = Some h /\ joins e' p c h) /\
    (set_up e -> density <> 0 -> big_box a a a -> set_up e').
Proof.
  intros HE HR HN (HI & HF) (HJ & HJN) HM Ha HK x.
  destruct (make_one_shape eig sd e (fresh 0%nat) (boxV a a a) (boxT a a a) HE HR HN (proj2 (HF 0%nat)) (box_good a a a Ha Ha Ha)) as (s & ES & R1 & EN & FS & IS).
  set (e1 := set_shapes e (e_shapes e ++ [s])) in *. pose proof (box_centre a a a s Ha Ha Ha IS) as SR.
  set (l := map (fun k => (fresh (S k), mkV (chain_x a K k) 0 0, q_Rz (PI / 4))) (seq 0 K)).
  assert (ND : NoDup (map (fun k => fresh (S k)) (seq 0 K))). { apply FinFun.Injective_map_NoDup; [|apply seq_NoDup]. intros i j H. apply HI in H. lia. }
  assert (EN3 : map nm3 l = stack_names fresh K). { unfold l, stack_names. rewrite map_map. reflexivity. }
  destruct (one_by_one eig sd (fresh 0%nat) s mat density l e1 R1 FS HM) as (bs & EE & FB & R2).
  { rewrite EN3. exact ND. }
  { intros y Hy. apply in_map_iff in Hy as (k & <- & _). exact (proj1 (HF (S k))). }
  apply (one_by_one_built e1 (fresh 0%nat)) in FB; [|exact FS].
  set (l' := map _ l) in FB.
  assert (EL : l' = map (fun k => (fresh (S k), fresh 0%nat, mkV (chain_x a K k) 0 0, q_Rz (PI / 4))) (seq 0 K)). { unfold l', l. rewrite map_map. reflexivity. }
  change (e_bodies e1) with (e_bodies e) in *.
  destruct K as [|K']; [lia|]. rewrite seq_S in EL. cbn [map] in EL. rewrite map_map in EL. rewrite EL in FB. inversion FB as [|x0 b0 l0 bs0 B0 F0]; subst x0 l0 bs. clear FB.
  destruct B0 as (s0 & t0 & i0 & Es0 & Eb0). cbn [it_shape it_name it_r it_q] in *. assert (s0 = s) by congruence. subst s0.
  set (b1 := finished s true mat density (stone s t0 i0 (fresh 1%nat) (mkV (chain_x a (S K') 0) 0 0) (q_Rz (PI / 4)))).
  set (e2 := set_bodies e1 (e_bodies e ++ b0 :: bs0)) in *.
  assert (NB2 : map b_name (e_bodies e2) = map b_name (e_bodies e) ++ map (fun k => fresh (S k)) (seq 0 (S K'))).
  { cbn. rewrite map_app. cbn [map]. rewrite (built_names _ _ _ _ _ _ F0), Eb0, map_map. cbn. rewrite <- seq_shift, map_map. reflexivity. }
  assert (M2 : has_mid e2 (e_bodies e) b0 bs0 (fresh 1%nat)).
  { split; [reflexivity|]. split; [exact (proj1 (HF 1%nat))|]. split; [|rewrite Eb0; reflexivity]. rewrite (built_names _ _ _ _ _ _ F0), map_map. intros H. apply in_map_iff in H as (k & H & _). apply HI in H. lia. }
  pose proof (set_type_mid e2 _ _ _ _ true M2) as ET. cbn [type_name] in ET. assert (EB1 : with_fixed b0 true = b1) by (rewrite Eb0; reflexivity). rewrite EB1 in ET. unfold e2 at 2 in ET. rewrite set_bodies_twice in ET.
  set (e3 := set_bodies e1 (e_bodies e ++ b1 :: bs0)) in *.
  assert (R3 : reach eig sd sane_params e3). { apply (reach_done _ _ _ (SetType (fresh 1%nat) fixed_name) e2); [exact R2|exact I|exact ET]. }
  assert (NB3 : map b_name (e_bodies e3) = map b_name (e_bodies e) ++ map (fun k => fresh (S k)) (seq 0 (S K'))).
  { rewrite <- NB2. unfold e2, e3. cbn. rewrite !map_app. cbn [map]. rewrite Eb0. reflexivity. }
  set (pcs := map (fun k => (fresh (S k), fresh (S (S k)))) (seq 0 K')).
  destruct (chain_hinges_ok eig sd pcs e3 R3) as (hs & EH & R4 & FH).
  { unfold pcs. rewrite map_map. cbn [fst snd]. apply FinFun.Injective_map_NoDup; [|apply seq_NoDup]. intros i j H. apply HJ in H. lia. }
  { intros pc Hpc. apply in_map_iff in Hpc as (k & <- & Hk). apply in_seq in Hk. cbn [fst snd]. split; [exact (HJN (S k))|]. rewrite NB3. split; apply in_or_app; right.
    - apply (in_map (fun k => fresh (S k)) _ k). apply in_seq. lia.
    - apply (in_map (fun k => fresh (S k)) _ (S k)). apply in_seq. lia. }
  unfold pcs in EH. rewrite each_map in EH. cbn [fst snd] in EH. change (e_hinges e3) with (e_hinges e) in *.
  set (e4 := set_hinges e3 (e_hinges e ++ hs)) in *.
  set (mesh := fun _ : name => (boxV a a a, boxT a a a)).
  set (it k := (fresh (S k), fresh 0%nat, mkV (chain_x a (S K') k) 0 0, q_Rz (PI / 4)) : item).
  assert (NDB : NoDup (map b_name (e_bodies e4))) by (apply (reach_names eig sd sane_params); exact R4).
  assert (HB : forall k, (k < S K')%nat -> exists b, In b (e_bodies e4) /\ built e1 (Nat.eqb k 0) mat density (it k) b).
  { intros [|k] Hk.
    - exists b1. split; [cbn; apply in_or_app; right; left; reflexivity|]. exists s, t0, i0. split; [exact FS|reflexivity].
    - assert (G : exists b, In b bs0 /\ built e1 false mat density (it (S k)) b).
      { assert (Hin : In (it (S k)) (map (fun x => (fresh (S (S x)), fresh 0%nat, mkV (chain_x a (S K') (S x)) 0 0, q_Rz (PI / 4))) (seq 0 K'))).
        { apply in_map_iff. exists k. split; [reflexivity|]. apply in_seq. lia. }
        clear - F0 Hin. revert F0 Hin. generalize (map (fun x => (fresh (S (S x)), fresh 0%nat, mkV (chain_x a (S K') (S x)) 0 0, q_Rz (PI / 4))) (seq 0 K')). intros L F Hin.
        induction F as [|y b L bs H F IH]; [destruct Hin|]. destruct Hin as [<-|Hx]; [exists b; split; [left; auto|auto]|]. destruct (IH Hx) as (b' & H1 & H2). exists b'. split; [right; auto|auto]. }
      destruct G as (b & Hb & HB). exists b. split; [cbn; apply in_or_app; right; right; exact Hb|exact HB]. }
  assert (ISX : forall k s', find_shape e1 (it_shape (it k)) = Some s' -> is_shape_of s' (fst (mesh (it_shape (it k)))) (snd (mesh (it_shape (it k))))).
  { intros k s' Hs'. change (find_shape e1 (fresh 0%nat) = Some s') in Hs'. rewrite FS in Hs'. apply some_eq in Hs'. subst s'. exact IS. }
  exists e4, (stack_names fresh (S K')).
  split. { unfold create_cube_hinge_chain. apply f_equal2; [|reflexivity]. change (create_box a a a) with (boxV a a a, boxT a a a). rewrite ES. cbn [andthen]. fold e1.
    unfold l in EE. rewrite each_map in EE. match goal with |- andthen ?A _ = _ => replace A with (Done e2) end. cbn [andthen]. rewrite ET. cbn [andthen]. exact EH. }
  split; [exact R4|]. split.
  { split; [exact NB3|]. assert (AB : adds e e3 (map b_name (b1 :: bs0))).
    { apply (adds_bodies e (b1 :: bs0) [s]). intros b Hb. assert (In (b_name b) (map (fun k => fresh (S k)) (seq 0 (S K')))).
      { assert (E : map b_name (b1 :: bs0) = map (fun k => fresh (S k)) (seq 0 (S K'))). { apply (app_inv_head (map b_name (e_bodies e))). rewrite <- NB3. cbn. rewrite map_app. reflexivity. }
        rewrite <- E. apply in_map. exact Hb. }
      apply in_map_iff in H as (k & <- & _). exact (proj1 (HF (S k))). }
    destruct AB as (_ & A2 & A3). split; [exact A2|exact A3]. }
  split; [unfold stack_names; rewrite map_length, seq_length; reflexivity|]. split; [exact ND|]. split.
  { intros k n Hk. apply seq_hit in Hk as [HkK ->]. destruct (HB k HkK) as (b & Hb & BB). 
    destruct (body_stones e4 e1 _ mat density mesh (it k) b NDB Hb BB (ISX k)) as [S1 (m & S2 & S3)]. cbn [it_name it_shape it_r it_q it mesh fst snd] in *.
    assert (XE : chain_x a (S K') k = x k) by (apply chain_x_eq; lra). rewrite XE in *.
    split; [exact (S1 (Rz_unit _))|]. split.
    - destruct BB as (s' & t & i & Fs' & ->). change (find_shape e1 (fresh 0%nat) = Some s') in Fs'. rewrite FS in Fs'. apply some_eq in Fs'. subst s'. unfold get_position.
      pose proof (found_in e4 _ NDB Hb) as FF. change (find_body e4 (fresh (S k)) = Some (finished s (Nat.eqb k 0) mat density (stone s t i (fresh (S k)) (mkV (chain_x a (S K') k) 0 0) (q_Rz (PI / 4))))) in FF. rewrite FF. clear FF. cbn [option_map]. apply f_equal. change (vadd (q_rotate (q_unit (q_Rz (PI / 4))) (sh_r s)) (mkV (chain_x a (S K') k) 0 0) = mkV (x k) 0 0).
      rewrite SR, q_rotate_zero0, XE. cbv [vadd vzero vx vy vz]. f_equal; ring.
    - exists m. rewrite (box_volume a a a) in S2. split; [exact S2|exact S3]. }
  pose proof (f2_len FH) as LH. unfold pcs in LH. rewrite map_length, seq_length in LH.
  split. { cbn. rewrite app_length, <- LH. lia. }
  split. { intros m Hm. unfold find_hinge. cbn. destruct (find (fun h => name_eqb (h_name h) m) (e_hinges e)) as [h|] eqn:E; [apply (find_app_l h_name); auto|]. apply (find_none h_name) in E. contradiction. }
  split.
  { intros k p c Hp Hc. apply seq_hit in Hp as [_ ->]. apply seq_hit in Hc as [Hk ->].
    assert (Hin : In (fresh (S k), fresh (S (S k))) pcs). { apply in_map_iff. exists k. split; [reflexivity|]. apply in_seq. lia. }
    assert (NDH : NoDup (map h_name (e_hinges e4))) by (apply reach_wf in R4; apply R4).
    assert (exists h, In h hs /\ h_name h = hinge_between (fresh (S k)) (fresh (S (S k))) /\ joins e3 (fresh (S k)) (fresh (S (S k))) h) as (h & Hh & EHn & HJh).
    { clear - FH Hin. induction FH as [|pc h pcs hs [H1 H2] F IH]; [destruct Hin|]. destruct Hin as [->|Hx]; [exists h; split; [left; auto|auto]|]. destruct (IH Hx) as (h' & G1 & G2). exists h'. split; [right; auto|auto]. }
    exists h. split; [|apply (joins_same e3); [reflexivity|exact HJh]]. rewrite <- EHn. 
    assert (Hi : In h (e_hinges e4)) by (cbn; apply in_or_app; right; exact Hh). clear - NDH Hi. unfold find_hinge. induction (e_hinges e4) as [|y L IH]; [destruct Hi|]. cbn. cbn in NDH. inversion NDH; subst.
    destruct Hi as [->|Hi]; [rewrite name_eqb_refl; reflexivity|]. rewrite name_eqb_neq; [auto|]. intros E. apply H1. rewrite E. apply in_map. auto. }
  intros U D B.
  assert (U3 : set_up e3).
  { apply (set_up_any e mat density mesh (map it (seq 0 (S K'))) (b1 :: bs0) (e_shapes e ++ [s])); auto.
    - rewrite seq_S. cbn [map]. constructor; [exists true, s, t0, i0; split; [exact FS|reflexivity]|]. rewrite map_map. exact (built_any _ _ _ _ _ _ F0).
    - intros y s' Hy Hs'. apply in_map_iff in Hy as (k & <- & _). exact (ISX k s' Hs').
    - intros y _. exact (box_counted a a a Ha Ha Ha B). }
  destruct U3 as (U1 & U2 & U4). split; [exact U1|]. split; [exact U2|]. cbn. intros h Hh. apply in_app_or in Hh as [Hh|Hh]; [exact (U4 h Hh)|].
  clear - FH Hh. induction FH as [|pc h' L hs (_ & P & C & sp & sc & _ & _ & E & _) F IH]; [destruct Hh|]. destruct Hh as [->|Hh]; [congruence|auto].
Qed.
(** no two cubes touch *)
Theorem C140_apart eig sd e fresh a K density mat e' names : eig_diagonal eig -> reach eig sd sane_params e -> (2 <= p_resolution (e_params e))%Z ->
  new_names e fresh -> new_hinges e fresh -> exist_material (e_lib e) mat = true -> 0 < a -> (1 <= K)%nat ->
  create_cube_hinge_chain eig sd fresh a K density mat e = (Done e', names) ->
  let x k := (INR k - (INR K - 1) / 2) * (21 / 20) * (sqrt 2 * a) in
  (forall k n p, nth_error names k = Some n -> occupies e' n p -> x k - sqrt 2 * a / 2 <= vx p <= x k + sqrt 2 * a / 2 /\ - a / 2 <= vz p <= a / 2) /\
  (forall j k n m p, j <> k -> nth_error names j = Some n -> nth_error names k = Some m -> occupies e' n p -> ~ occupies e' m p).
Proof.
  intros HE HR HN HF HJ HM Ha HK H x. destruct (C140_chain eig sd e fresh a K density mat HE HR HN HF HJ HM Ha HK) as (e1 & ns & E & _ & _ & _ & _ & HS & _).
  rewrite E in H. assert (e1 = e') by congruence. assert (ns = names) by congruence. subst e1 ns. clear H E.
  pose proof Rlt_sqrt2_0 as P2. assert (S22 : sqrt 2 * sqrt 2 = 2) by (apply sqrt_sqrt; lra).
  assert (SLAB : forall k n p, nth_error names k = Some n -> occupies e' n p -> x k - sqrt 2 * a / 2 <= vx p <= x k + sqrt 2 * a / 2 /\ - a / 2 <= vz p <= a / 2).
  { intros k n p Hn Ho. destruct (HS k n Hn) as [St _]. destruct (stands_inside _ _ _ _ _ _ (Rz_unit _) St Ho) as (z & -> & Hz).
    apply box_hull in Hz; auto. destruct Hz as (X & Y & Z). unfold at_pose. rewrite Rz_rotate. cbn [vadd vx vz]. rewrite cos_PI4, sin_PI4.
    assert (I2 : 1 / sqrt 2 = sqrt 2 / 2). { apply (Rmult_eq_reg_l (sqrt 2)); [|lra]. field_simplify; try lra. }
    rewrite I2. fold (x k). split; [|lra]. assert (D : - (a * sqrt 2 / 2) <= (vx z - vy z) * (sqrt 2 / 2) <= a * sqrt 2 / 2) by (split; nra). lra. }
  split; [exact SLAB|].
  assert (LT : forall j k n m p, (j < k)%nat -> nth_error names j = Some n -> nth_error names k = Some m -> occupies e' n p -> ~ occupies e' m p).
  { intros j k n m p Hjk Hn Hm Hp Hq. destruct (SLAB _ _ _ Hn Hp) as [A _]. destruct (SLAB _ _ _ Hm Hq) as [B _].
    assert (L : INR j + 1 <= INR k) by (rewrite <- S_INR; apply le_INR; lia). unfold x in *. set (w := sqrt 2 * a) in *. assert (0 < w) by (apply Rmult_lt_0_compat; auto).
    assert (21 / 20 * w <= (INR k - INR j) * (21 / 20 * w)) by nra. lra. }
  intros j k n m p Hjk Hn Hm Hp Hq. destruct (Nat.lt_gt_cases j k) as [G _]. destruct (G Hjk) as [L|L]; [exact (LT j k n m p L Hn Hm Hp Hq)|exact (LT k j m n p L Hm Hn Hq Hp)].
Qed.
(** an empty chain is an error: the code fixes the first cube of the list *)
Theorem C140_empty eig sd e fresh a density mat : eig_diagonal eig -> reach eig sd sane_params e -> (2 <= p_resolution (e_params e))%Z ->
  new_names e fresh -> 0 < a -> exists e', create_cube_hinge_chain eig sd fresh a 0 density mat e = (Raised e', []) /\ e_bodies e' = e_bodies e /\ e_hinges e' = e_hinges e.
Proof.
  intros HE HR HN (HI & HF) Ha.
  destruct (make_one_shape eig sd e (fresh 0%nat) (boxV a a a) (boxT a a a) HE HR HN (proj2 (HF 0%nat)) (box_good a a a Ha Ha Ha)) as (s & ES & R1 & EN & FS & IS).
  exists (set_shapes e (e_shapes e ++ [s])). split; [|split; reflexivity]. unfold create_cube_hinge_chain. apply f_equal2; [|reflexivity]. change (create_box a a a) with (boxV a a a, boxT a a a). rewrite ES. reflexivity.
Qed.
Theorem C140_simulates eig sd e fresh a K density mat e' names time : eig_diagonal eig -> reach eig sd sane_params e -> (2 <= p_resolution (e_params e))%Z ->
  new_names e fresh -> new_hinges e fresh -> exist_material (e_lib e) mat = true -> 0 < a -> (1 <= K)%nat -> set_up e -> density <> 0 -> big_box a a a -> 0 < time -> 0 < p_time_step (e_params e) ->
  create_cube_hinge_chain eig sd fresh a K density mat e = (Done e', names) ->
  exists e2 dts, lsum dts = time /\ exists n, forall fuel, (n <= fuel)%nat -> simulate fuel time e' = SimDone e2 dts.
Proof.
  intros HE HR HN HF HJ HM Ha HK HU HD HB HT HS H. destruct (C140_chain eig sd e fresh a K density mat HE HR HN HF HJ HM Ha HK) as (e1 & ns & E & R1 & HA & _ & _ & _ & _ & _ & _ & U).
  rewrite E in H. assert (e1 = e') by congruence. subst e1. destruct HA as (_ & _ & _ & _ & _ & _ & EP & _).
  destruct (C84_simulate eig sd e' time R1 (U HU HD HB) HT) as (e2 & dts & K1 & _ & K2); [rewrite EP; exact HS|]. exists e2, dts. auto.
Qed.
Lemma numbered_hinges : new_hinges create_engine numbered.
Proof. split; [intros i j H; injection H; auto|]. intros i. cbn. auto. Qed.
Example C140_nonvacuous sd : exists e', create_cube_hinge_chain diag_eig sd numbered 1 3 1 default_name create_engine = (Done e', [[1]; [2]; [3]]%nat) /\
  at_rest e' [1]%nat true default_name 1 /\ at_rest e' [3]%nat false default_name 1 /\ length (e_hinges e') = 2%nat.
Proof.
  assert (R0 : reach diag_eig sd sane_params create_engine). { apply reach_new. split; [reflexivity|]. cbn. split; [lia|lra]. }
  destruct (C140_chain diag_eig sd create_engine numbered 1 3 1 default_name diag_eig_diagonal R0 ltac:(cbn; lia) numbered_new numbered_hinges eq_refl ltac:(lra) ltac:(lia)) as (e' & ns & E & _ & _ & _ & _ & HS & HL & _).
  assert (EN : ns = [[1]; [2]; [3]]%nat) by (apply (f_equal snd) in E; symmetry; exact E). subst ns. exists e'. split; [exact E|].
  destruct (HS 0%nat [1]%nat eq_refl) as (_ & _ & (m & H2 & H3)). destruct (HS 2%nat [3]%nat eq_refl) as (_ & _ & (m' & H2' & H3')).
  apply pos_clamp_val in H2; [|unfold tiny; lra]. apply pos_clamp_val in H2'; [|unfold tiny; lra]. subst m m'. replace (1 * 1 * 1 * 1) with 1 in * by ring. split; [exact H3|]. split; [exact H3'|exact HL].
Qed.
Print Assumptions C140_chain.
Print Assumptions C140_apart.
Print Assumptions C140_empty.
Print Assumptions C140_simulates.
