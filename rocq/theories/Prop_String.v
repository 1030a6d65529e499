(** C143, C144, C145: vectors and rotations written as text *)
From Verif Require Import Base VecModel QuatModel RotModel StringModel StringSpec StringProofs StringProofs2.
From Coq Require Import Lia Lra.
Open Scope R_scope.

Lemma digit_first i : good_item i -> exists c t, item_text i = c :: t /\ clean c.
Proof.
  intros G. pose proof (item_nonempty i G). pose proof (item_clean i G) as F. destruct (item_text i) as [|c t]; [cbn in *; lia|]. exists c, t. inversion F; auto.
Qed.
Lemma list_array_check l : l <> [] -> Forall good_item l -> array_check (list_text l) = true.
Proof.
  intros N F. unfold array_check, accepts, seqp. rewrite <- (app_nil_r (list_text l)), p_list_items by auto. reflexivity.
Qed.
Lemma v3_list_gen rand value l : lower value = list_text l -> l <> [] -> Forall good_item l ->
  v3_from_string rand value = match map item_value l with x :: y :: z :: _ => Some (mkV x y z) | _ => None end.
Proof.
  intros E N F. unfold v3_from_string. cbv zeta. rewrite E. unfold list_text at 1 2 3 4 5. rewrite !str_eqb_head by discriminate.
  unfold v3_check_string. rewrite list_array_check by auto. cbn [orb negb]. cbv iota. change (startswith w_rand (list_text l)) with false. cbv iota.
  rewrite to_array_items by auto. reflexivity.
Qed.
Lemma v3_rand_gen rand value a b : lower value = w_rand ++ item_text a ++ 58%nat :: item_text b -> good_item a -> good_item b ->
  v3_from_string rand value = Some (rand (item_value a) (item_value b)).
Proof.
  intros E A B. unfold v3_from_string. cbv zeta. rewrite E.
  assert (K : forall d t, d <> 114%nat -> str_eqb (w_rand ++ item_text a ++ 58%nat :: item_text b) (d :: t) = false) by (intros; apply str_eqb_head; auto).
  unfold w_ones, w_zero. rewrite !K by lia. clear K.
  assert (C : random_range_check (w_rand ++ item_text a ++ 58%nat :: item_text b) = true).
  { unfold random_range_check, accepts, seqp. change (lit w_rand (w_rand ++ item_text a ++ 58%nat :: item_text b)) with (Some (item_text a ++ 58%nat :: item_text b)).
    cbv iota. rewrite number_item by (auto; apply stops_cons; auto). rewrite lit_ws by apply A. change c_colon with 58%nat. rewrite lit_hit by reflexivity.
    rewrite <- (app_nil_r (item_text b)), number_item by (auto; exact stops_nil). rewrite app_nil_r. pose proof (line_end_blanks (i_post b)) as L. unfold accepts in L. apply L. apply B. }
  unfold v3_check_string. rewrite C, orb_true_r. cbn [negb]. cbv iota. change (startswith w_rand (w_rand ++ item_text a ++ 58%nat :: item_text b)) with true. cbv iota.
  destruct (digit_first a A) as (c & t & Ec & Cc). pose proof (item_nonempty b B) as Nb.
  assert (Ne : item_text b <> []) by (intros Z; rewrite Z in Nb; cbn in Nb; lia). destruct (exists_last Ne) as (t' & c' & Eb).
  assert (Cb : clean c'). { pose proof (item_clean b B) as F. rewrite Eb in F. apply Forall_app in F. destruct F as [_ F]. inversion F; auto. }
  assert (Nc : Forall (fun x => ~ clean x) w_rand) by (apply not_clean_list; repeat apply Forall_cons; auto; lia).
  assert (St : strip w_rand (w_rand ++ item_text a ++ 58%nat :: item_text b) = item_text a ++ 58%nat :: item_text b).
  { pose proof (strip_spec w_rand w_rand (item_text a ++ 58%nat :: item_text b) [] c (t ++ 58%nat :: item_text b) (item_text a ++ 58%nat :: t') c') as P. rewrite app_nil_r in P. apply P; auto.
    - repeat constructor. - rewrite Ec. reflexivity. - apply clean_not_in; auto. - rewrite Eb, <- app_assoc. reflexivity. - apply clean_not_in; auto. }
  rewrite St, split_one, split_none by (apply clean_colon, item_clean; auto). rewrite !py_float_item by auto. reflexivity.
Qed.

(** * C143 *)
(** The words, in any capitalisation *)
Theorem C143_words : forall rand value,
  (lower value = w_ones -> v3_from_string rand value = Some (mkV 1 1 1)) /\
  (lower value = w_zero -> v3_from_string rand value = Some (mkV 0 0 0)) /\
  (lower value = [105%nat] -> v3_from_string rand value = Some (mkV 1 0 0)) /\
  (lower value = [106%nat] -> v3_from_string rand value = Some (mkV 0 1 0)) /\
  (lower value = [107%nat] -> v3_from_string rand value = Some (mkV 0 0 1)).
Proof.
  intros rand value. unfold v3_from_string. cbv zeta. repeat split; intros ->; reflexivity.
Qed.
(** A list of at least three numbers gives the first three of them; a shorter list is refused *)
Theorem C143_list : forall rand value l, lower value = list_text l -> Forall good_item l -> l <> [] ->
  (forall i j k more, l = i :: j :: k :: more -> v3_from_string rand value = Some (mkV (item_value i) (item_value j) (item_value k))) /\
  ((length l < 3)%nat -> v3_from_string rand value = None).
Proof.
  intros rand value l E F N. rewrite (v3_list_gen rand value l E N F). split.
  - intros i j k more ->. reflexivity.
  - intros L. destruct l as [|i [|j [|k l]]]; try reflexivity. cbn in L. lia.
Qed.
(** "rand:lo:hi" draws from [lo, hi] *)
Theorem C143_rand : forall rand value a b, lower value = w_rand ++ item_text a ++ 58%nat :: item_text b -> good_item a -> good_item b ->
  v3_from_string rand value = Some (rand (item_value a) (item_value b)).
Proof. exact v3_rand_gen. Qed.

(** A string without blanks and without e *)
Definition compact (s : str) : Prop := Forall (fun c => c <> 32%nat /\ c <> 9%nat /\ c <> 10%nat /\ c <> 13%nat /\ c <> 101%nat) s.
Lemma compact_tidy s : compact s -> tidy s.
Proof.
  apply Forall_impl. intros c H. split; [|tauto]. destruct (is_ws c) eqn:E; auto. apply is_ws_iff in E. lia.
Qed.
Lemma array_check_inv s : tidy s -> array_check s = true -> exists ns, ns <> [] /\ Forall plain_numeral ns /\ s = list_text (map bare ns).
Proof.
  intros T H. unfold array_check, accepts, seqp in H. destruct (p_list s) as [r|] eqn:E; [|discriminate]. destruct (list_inv s r T E) as (ns & N & F & Es).
  pose proof T as T'. rewrite Es in T'. apply tidy_app in T'. destruct (p_line_end r) eqn:L; [|discriminate]. apply line_end_inv in L; [|tauto]. subst r. rewrite app_nil_r in Es. eauto.
Qed.
Lemma all_bare ns : Forall plain_numeral ns -> Forall good_item (map bare ns).
Proof. induction 1; constructor; auto. apply bare_good; auto. Qed.
(** Nothing else is read: a string without blanks and exponents that gives a vector is one of the words, a list of at least three numerals
    (and the vector is their values) or a range of two numerals *)
Theorem C143_only : forall rand s v, compact (lower s) -> v3_from_string rand s = Some v ->
  (In (lower s, v) [([105%nat], mkV 1 0 0); ([106%nat], mkV 0 1 0); ([107%nat], mkV 0 0 1)]) \/
  (exists x y z more, Forall plain_numeral (x :: y :: z :: more) /\ lower s = 91%nat :: joined (map text (x :: y :: z :: more)) ++ [93%nat] /\
     v = mkV (value x) (value y) (value z)) \/
  (exists a b, plain_numeral a /\ plain_numeral b /\ lower s = w_rand ++ text a ++ 58%nat :: text b /\ v = rand (value a) (value b)).
Proof.
  intros rand s v Cp H. pose proof (compact_tidy _ Cp) as T. pose proof H as H0. unfold v3_from_string in H. cbv zeta in H.
  destruct (str_eqb (lower s) w_ones) eqn:K1. { apply str_eqb_true in K1. rewrite K1 in Cp. exfalso. inversion Cp as [|? ? _ C2]. inversion C2 as [|? ? _ C3]. inversion C3 as [|? ? C4 _]. lia. }
  destruct (str_eqb (lower s) w_zero) eqn:K2. { apply str_eqb_true in K2. rewrite K2 in Cp. exfalso. inversion Cp as [|? ? _ C2]. inversion C2 as [|? ? C3 _]. lia. }
  destruct (str_eqb (lower s) [105%nat]) eqn:K3. { apply str_eqb_true in K3. left. rewrite K3. inversion H. cbn. auto. }
  destruct (str_eqb (lower s) [106%nat]) eqn:K4. { apply str_eqb_true in K4. left. rewrite K4. inversion H. cbn. auto. }
  destruct (str_eqb (lower s) [107%nat]) eqn:K5. { apply str_eqb_true in K5. left. rewrite K5. inversion H. cbn. auto. }
  right. clear K1 K2 K3 K4 K5. unfold v3_check_string in H. destruct (array_check (lower s)) eqn:A.
  - left. clear H. destruct (array_check_inv _ T A) as (ns & N & F & Es).
    assert (Nb : map bare ns <> []) by (destruct ns; [congruence|discriminate]).
    rewrite (v3_list_gen rand s (map bare ns) Es Nb (all_bare ns F)) in H0. destruct ns as [|x [|y [|z more]]]; try discriminate H0.
    exists x, y, z, more. split; auto. split; [|inversion H0; reflexivity]. rewrite Es. unfold list_text. do 3 f_equal. rewrite map_map. apply map_ext. apply bare_text.
  - right. destruct (random_range_check (lower s)) eqn:Rc; [|discriminate H]. clear H. unfold random_range_check, accepts, seqp in Rc.
    destruct (lit w_rand (lower s)) as [u|] eqn:E1; [|discriminate]. apply lit_inv in E1; auto. rewrite E1 in T. apply tidy_app in T. destruct T as [_ T].
    destruct (p_number u) as [u2|] eqn:E2; [|discriminate]. destruct (number_inv _ _ T E2) as (a & Pa & ->). apply tidy_app in T. destruct T as [_ T].
    destruct (lit [c_colon] u2) as [u3|] eqn:E3; [|discriminate]. apply lit_inv in E3; auto. subst u2. inversion T as [|? ? _ T']; subst.
    destruct (p_number u3) as [u4|] eqn:E4; [|discriminate]. destruct (number_inv _ _ T' E4) as (b & Pb & ->). apply tidy_app in T'. destruct T' as [_ T'].
    destruct (p_line_end u4) eqn:L; [|discriminate]. apply line_end_inv in L; auto. subst u4. rewrite app_nil_r in E1.
    exists a, b. split; auto. split; auto. split; [exact E1|]. rewrite (v3_rand_gen rand s (bare a) (bare b)) in H0; [inversion H0; reflexivity | rewrite !bare_text; exact E1 | apply bare_good; auto | apply bare_good; auto].
Qed.

(** * C144 *)
Definition axis_word (c : nat) : str := [114%nat; c; 58%nat].
Lemma letters_axis c s : (c = 120 \/ c = 121 \/ c = 122)%nat -> p_letters (axis_word c ++ s) = Some (58%nat :: s) /\ take is_alpha (skip is_ws (axis_word c ++ s)) = [114%nat; c].
Proof. intros [ -> | [ -> | -> ]]; split; reflexivity. Qed.
Lemma axis_check c i : (c = 120 \/ c = 121 \/ c = 122)%nat -> good_item i -> rotation_check (axis_word c ++ item_text i) = true.
Proof.
  intros Hc G. destruct (letters_axis c (item_text i) Hc) as [P Q]. unfold rotation_check. rewrite Q. unfold accepts, seqp. rewrite P. change c_colon with 58%nat.
  rewrite lit_hit by reflexivity. rewrite <- (app_nil_r (item_text i)), number_item by (auto; exact stops_nil). rewrite app_nil_r.
  pose proof (line_end_blanks (i_post i)) as L. unfold accepts in L. rewrite L by apply G. destruct Hc as [ -> | [ -> | -> ]]; reflexivity.
Qed.
Lemma axis_strip c i : (c = 120 \/ c = 121 \/ c = 122)%nat -> good_item i -> strip (axis_word c) (axis_word c ++ item_text i) = item_text i.
Proof.
  intros Hc G. pose proof (strip_clean (axis_word c) (axis_word c) (item_text i) []) as P. rewrite app_nil_r in P. apply P.
  - destruct Hc as [ -> | [ -> | -> ]]; repeat constructor.
  - constructor.
  - pose proof (item_nonempty i G) as N. intros Z. rewrite Z in N. cbn in N. lia.
  - apply item_clean; auto.
  - apply not_clean_list. repeat apply Forall_cons; auto; lia.
Qed.
Lemma turn_axis f c i : (c = 120 \/ c = 121 \/ c = 122)%nat -> good_item i -> turn f (axis_word c) (axis_word c ++ item_text i) = Some (f (item_value i * PI / 180)).
Proof. intros Hc G. unfold turn. rewrite axis_strip, py_float_item by auto. reflexivity. Qed.
Definition about_axis (c : nat) : vec3 := if Nat.eqb c 120 then mkV 1 0 0 else if Nat.eqb c 121 then mkV 0 1 0 else mkV 0 0 1.
Lemma q_axis_gen rand s c i : lower s = axis_word c ++ item_text i -> (c = 120 \/ c = 121 \/ c = 122)%nat -> good_item i ->
  q_from_string rand s = Some ((if Nat.eqb c 120 then q_Rx else if Nat.eqb c 121 then q_Ry else q_Rz) (item_value i * PI / 180)).
Proof.
  intros E Hc G. unfold q_from_string. cbv zeta. rewrite E. unfold q_check_string. rewrite axis_check by auto. cbn [orb negb]. cbv iota.
  replace (str_eqb (axis_word c ++ item_text i) w_identity) with false by (symmetry; apply str_eqb_head; discriminate).
  destruct Hc as [ -> | [ -> | -> ]].
  - change (startswith w_rx (axis_word 120 ++ item_text i)) with true. cbv iota. change w_rx with (axis_word 120). rewrite turn_axis by auto. reflexivity.
  - change (startswith w_rx (axis_word 121 ++ item_text i)) with false. change (startswith w_ry (axis_word 121 ++ item_text i)) with true. cbv iota. change w_ry with (axis_word 121). rewrite turn_axis by auto. reflexivity.
  - change (startswith w_rx (axis_word 122 ++ item_text i)) with false. change (startswith w_ry (axis_word 122 ++ item_text i)) with false. change (startswith w_rz (axis_word 122 ++ item_text i)) with true. cbv iota. change w_rz with (axis_word 122). rewrite turn_axis by auto. reflexivity.
Qed.
Lemma list_clean_lower l : Forall good_item l -> lower (list_text l) = list_text l.
Proof.
  intros F. apply lower_id. constructor; [lia|]. apply Forall_app. split; [|constructor; [lia|constructor]]. apply clean_lower, joined_clean; auto.
Qed.
Lemma list_no_colon l : Forall good_item l -> Forall (fun c => c <> 58%nat) (list_text l).
Proof. intros F. constructor; [lia|]. apply Forall_app. split; [|constructor; [lia|constructor]]. apply clean_colon, joined_clean; auto. Qed.
Lemma q_ru_gen rand s i l : lower s = w_ru ++ item_text i ++ 58%nat :: list_text l -> good_item i -> Forall good_item l -> l <> [] ->
  q_from_string rand s = match v3_from_string rand (list_text l) with Some a => Some (q_Ru (item_value i * PI / 180) a) | None => None end.
Proof.
  intros E G F N. unfold q_from_string. cbv zeta. rewrite E. set (u := w_ru ++ item_text i ++ 58%nat :: list_text l).
  assert (C : ru_check u = true).
  { unfold ru_check, accepts, seqp, u. change (lit w_ru (w_ru ++ item_text i ++ 58%nat :: list_text l)) with (Some (item_text i ++ 58%nat :: list_text l)).
    cbv iota. rewrite number_item by (auto; apply stops_cons; auto). rewrite lit_ws by apply G. change c_colon with 58%nat. rewrite lit_hit by reflexivity.
    rewrite <- (app_nil_r (list_text l)), p_list_items by auto. reflexivity. }
  unfold q_check_string. rewrite C, orb_true_r. cbn [orb negb]. cbv iota.
  replace (str_eqb u w_identity) with false by (symmetry; apply str_eqb_head; discriminate).
  change (startswith w_rx u) with false. change (startswith w_ry u) with false. change (startswith w_rz u) with false. change (startswith w_ru u) with true. cbv iota.
  assert (Nc : Forall (fun x => ~ clean x) w_ru) by (apply not_clean_list; repeat apply Forall_cons; auto; lia).
  destruct (digit_first i G) as (c & t & Ec & Cc).
  assert (St : strip w_ru u = item_text i ++ 58%nat :: list_text l).
  { pose proof (strip_spec w_ru w_ru (item_text i ++ 58%nat :: list_text l) [] c (t ++ 58%nat :: list_text l) (item_text i ++ 58%nat :: 91%nat :: joined (map item_text l)) 93%nat) as P. rewrite app_nil_r in P. apply P; auto.
    - repeat constructor. - rewrite Ec. reflexivity. - apply clean_not_in; auto. - unfold list_text. rewrite <- app_assoc. reflexivity. }
  rewrite St, split_one, split_none by (try (apply clean_colon, item_clean; auto); apply list_no_colon; auto). rewrite py_float_item by auto. reflexivity.
Qed.
Lemma q_list_gen rand s l : lower s = list_text l -> l <> [] -> Forall good_item l ->
  q_from_string rand s = match map item_value l with a :: b :: c :: d :: _ => Some (mkQ a b c d) | _ => None end.
Proof.
  intros E N F. unfold q_from_string. cbv zeta. rewrite E. unfold q_check_string. rewrite list_array_check by auto. rewrite orb_true_r. cbn [orb negb]. cbv iota.
  replace (str_eqb (list_text l) w_identity) with false by (symmetry; apply str_eqb_head; discriminate).
  change (startswith w_rx (list_text l)) with false. change (startswith w_ry (list_text l)) with false. change (startswith w_rz (list_text l)) with false. change (startswith w_ru (list_text l)) with false. cbv iota.
  rewrite to_array_items by auto. reflexivity.
Qed.
Theorem C144_identity : forall rand s, lower s = w_identity -> q_from_string rand s = Some (mkQ 1 0 0 0).
Proof. intros rand s E. unfold q_from_string. cbv zeta. rewrite E. reflexivity. Qed.
(** "rx:d", "ry:d", "rz:d" turn by d degrees about the x, y, z axis: the quaternion of that axis and angle *)
Theorem C144_axis : forall rand s c i, lower s = [114%nat; c; 58%nat] ++ item_text i -> (c = 120 \/ c = 121 \/ c = 122)%nat -> good_item i ->
  let u := about_axis c in let h := item_value i * PI / 180 / 2 in
  q_from_string rand s = Some (mkQ (cos h) (sin h * vx u) (sin h * vy u) (sin h * vz u)).
Proof.
  intros rand s c i E Hc G u h. rewrite (q_axis_gen rand s c i E Hc G). apply f_equal. unfold u, about_axis, q_Rx, q_Ry, q_Rz. fold h.
  destruct Hc as [ -> | [ -> | -> ]]; cbn [Nat.eqb vx vy vz]; fold h; apply f_equal4 || idtac; rewrite ?Rmult_0_r, ?Rmult_1_r; reflexivity.
Qed.
(** "ru:d:[x,y,z]" turns by d degrees about the direction (x, y, z) *)
Theorem C144_about : forall rand s i a b c more, lower s = w_ru ++ item_text i ++ 58%nat :: list_text (a :: b :: c :: more) -> good_item i ->
  Forall good_item (a :: b :: c :: more) ->
  q_from_string rand s = Some (q_Ru (item_value i * PI / 180) (mkV (item_value a) (item_value b) (item_value c))).
Proof.
  intros rand s i a b c more E G F. rewrite (q_ru_gen rand s i _ E G F) by discriminate.
  rewrite (v3_list_gen rand (list_text (a :: b :: c :: more)) (a :: b :: c :: more)); [reflexivity | apply list_clean_lower; auto | discriminate | auto].
Qed.
(** A list of at least four numbers gives the first four, scalar part first; a shorter list is refused *)
Theorem C144_list : forall rand s l, lower s = list_text l -> Forall good_item l -> l <> [] ->
  (forall a b c d more, l = a :: b :: c :: d :: more -> q_from_string rand s = Some (mkQ (item_value a) (item_value b) (item_value c) (item_value d))) /\
  ((length l < 4)%nat -> q_from_string rand s = None).
Proof.
  intros rand s l E F N. rewrite (q_list_gen rand s l E N F). split.
  - intros a b c d more ->. reflexivity.
  - intros L. destruct l as [|a [|b [|c [|d l]]]]; try reflexivity. cbn in L. lia.
Qed.
Lemma take_prefix p s : prefix (take p s) s = Some (skip p s).
Proof. induction s as [|c t IH]; cbn; auto. destruct (p c); cbn; auto. rewrite Nat.eqb_refl. auto. Qed.
Lemma rotation_check_inv s : tidy s -> rotation_check s = true -> exists c n, (c = 120 \/ c = 121 \/ c = 122)%nat /\ plain_numeral n /\ s = axis_word c ++ text n.
Proof.
  intros T H. unfold rotation_check in H. apply andb_true_iff in H. destruct H as [A B]. rewrite tidy_skip in B by auto.
  apply existsb_exists in B. destruct B as (w & Iw & Ew). apply str_eqb_true in Ew.
  assert (exists c, (c = 120 \/ c = 121 \/ c = 122)%nat /\ w = [114%nat; c]) as (c & Hc & Wc). { cbn in Iw. destruct Iw as [ <- | [ <- | [ <- | []]]]; eauto. }
  exists c. unfold accepts, seqp, p_letters in A. rewrite tidy_skip in A by auto. pose proof (take_prefix is_alpha s) as P. pose proof (take_skip is_alpha s) as Ts. rewrite Wc in Ew. rewrite Ew in P, Ts, A. cbv iota beta in A. rewrite P in A.
  remember (skip is_alpha s) as r eqn:Er. clear Er P. rewrite Ts in T. apply tidy_app in T. destruct T as [_ T].
  destruct (lit [c_colon] r) as [u|] eqn:E1; [|discriminate]. apply lit_inv in E1; auto. subst r. inversion T as [|? ? _ T']; subst.
  destruct (p_number u) as [u2|] eqn:E2; [|discriminate]. destruct (number_inv _ _ T' E2) as (n & Pn & ->). apply tidy_app in T'. destruct T' as [_ T'].
  destruct (p_line_end u2) eqn:L; [|discriminate]. apply line_end_inv in L; auto. subst u2. exists n. split; auto. split; auto. rewrite app_nil_r. reflexivity.
Qed.
Lemma ru_check_inv s : tidy s -> ru_check s = true -> exists n ns, plain_numeral n /\ ns <> [] /\ Forall plain_numeral ns /\ s = w_ru ++ text n ++ 58%nat :: list_text (map bare ns).
Proof.
  intros T H. unfold ru_check, accepts, seqp in H. destruct (lit w_ru s) as [u|] eqn:E1; [|discriminate]. apply lit_inv in E1; auto. subst s. apply tidy_app in T. destruct T as [_ T].
  destruct (p_number u) as [u2|] eqn:E2; [|discriminate]. destruct (number_inv _ _ T E2) as (n & Pn & ->). apply tidy_app in T. destruct T as [_ T].
  destruct (lit [c_colon] u2) as [u3|] eqn:E3; [|discriminate]. apply lit_inv in E3; auto. subst u2. inversion T as [|? ? _ T']; subst.
  destruct (p_list u3) as [u4|] eqn:E4; [|discriminate]. destruct (list_inv _ _ T' E4) as (ns & N & F & ->). apply tidy_app in T'. destruct T' as [_ T'].
  destruct (p_line_end u4) eqn:L; [|discriminate]. apply line_end_inv in L; auto. subst u4. rewrite app_nil_r. exists n, ns. auto.
Qed.
(** Nothing else is read *)
Theorem C144_only : forall rand s q, compact (lower s) -> q_from_string rand s = Some q ->
  (exists c n, (c = 120 \/ c = 121 \/ c = 122)%nat /\ plain_numeral n /\ lower s = [114%nat; c; 58%nat] ++ text n /\ q = q_Ru (value n * PI / 180) (about_axis c)) \/
  (exists n x y z more, Forall plain_numeral (n :: x :: y :: z :: more) /\
     lower s = w_ru ++ text n ++ 58%nat :: 91%nat :: joined (map text (x :: y :: z :: more)) ++ [93%nat] /\ q = q_Ru (value n * PI / 180) (mkV (value x) (value y) (value z))) \/
  (exists a b c d more, Forall plain_numeral (a :: b :: c :: d :: more) /\ lower s = 91%nat :: joined (map text (a :: b :: c :: d :: more)) ++ [93%nat] /\
     q = mkQ (value a) (value b) (value c) (value d)).
Proof.
  intros rand s q Cp H. pose proof (compact_tidy _ Cp) as T. pose proof H as H0. unfold q_from_string in H. cbv zeta in H.
  assert (LT : forall ns, list_text (map bare ns) = 91%nat :: joined (map text ns) ++ [93%nat]). { intros ns. unfold list_text. do 3 f_equal. rewrite map_map. apply map_ext. apply bare_text. }
  unfold q_check_string in H. destruct (rotation_check (lower s)) eqn:A1; [|destruct (array_check (lower s)) eqn:A2; [|destruct (ru_check (lower s)) eqn:A3; [|destruct (keywords_check (lower s)) eqn:A4; [|discriminate H]]]]; clear H.
  - left. destruct (rotation_check_inv _ T A1) as (c & n & Hc & Pn & Es). exists c, n. split; auto. split; auto. split; auto.
    rewrite <- bare_text in Es. rewrite (q_axis_gen rand s c (bare n) Es Hc (bare_good n Pn)) in H0. change (item_value (bare n)) with (value n) in H0. inversion H0 as [K]. clear.
    assert (N1 : sqrt (1 * 1 + 0 * 0 + 0 * 0) = 1) by (replace (1 * 1 + 0 * 0 + 0 * 0) with 1 by ring; apply sqrt_1).
    assert (N2 : sqrt (0 * 0 + 1 * 1 + 0 * 0) = 1) by (replace (0 * 0 + 1 * 1 + 0 * 0) with 1 by ring; apply sqrt_1).
    assert (N3 : sqrt (0 * 0 + 0 * 0 + 1 * 1) = 1) by (replace (0 * 0 + 0 * 0 + 1 * 1) with 1 by ring; apply sqrt_1).
    unfold about_axis. destruct (Nat.eqb c 120); [|destruct (Nat.eqb c 121)]; unfold q_Rx, q_Ry, q_Rz, q_Ru, vdiv, vscale, vnorm, vdot; cbn [vx vy vz]; rewrite ?N1, ?N2, ?N3; cbn [vx vy vz]; f_equal; field.
  - right. right. destruct (array_check_inv _ T A2) as (ns & N & F & Es). assert (Nb : map bare ns <> []) by (destruct ns; [congruence|discriminate]).
    rewrite (q_list_gen rand s (map bare ns) Es Nb (all_bare ns F)) in H0. destruct ns as [|a [|b [|c [|d more]]]]; try discriminate H0.
    exists a, b, c, d, more. split; auto. split; [|inversion H0; reflexivity]. rewrite Es. apply LT.
  - right. left. destruct (ru_check_inv _ T A3) as (n & ns & Pn & N & F & Es). assert (Nb : map bare ns <> []) by (destruct ns; [congruence|discriminate]).
    rewrite <- (bare_text n) in Es. rewrite (q_ru_gen rand s (bare n) (map bare ns) Es (bare_good n Pn) (all_bare ns F) Nb) in H0.
    rewrite (v3_list_gen rand (list_text (map bare ns)) (map bare ns)) in H0; [| apply list_clean_lower, all_bare; auto | auto | apply all_bare; auto].
    destruct ns as [|x [|y [|z more]]]; try discriminate H0. exists n, x, y, z, more. split; [constructor; auto|]. split; [|inversion H0; reflexivity]. rewrite Es, bare_text, LT. reflexivity.
  - exfalso. apply str_eqb_true in A4. rewrite A4 in Cp. inversion Cp as [|? ? _ C2]. inversion C2 as [|? ? _ C3]. inversion C3 as [|? ? C4 _]. lia.
Qed.

(** * C145: not every decimal numeral is understood *)
(** A list one of whose numbers has a zero at the start of its fraction (or exponent) and another digit behind it is refused,
    whatever else is in the list: "[0.05,0,0]", "[1e-05,0,0]" *)
Theorem C145_padded_refuted : forall rand s l b n rest, Forall good_item l -> blanks b -> padded_numeral n ->
  lower s = 91%nat :: joined (map item_text l ++ [b ++ text n]) ++ rest -> v3_from_string rand s = None /\ q_from_string rand s = None.
Proof.
  intros rand s l b n rest F B P E. assert (A : array_check (lower s) = false). { unfold array_check, accepts, seqp. rewrite E, p_list_padded by auto. reflexivity. }
  split.
  - unfold v3_from_string. cbv zeta. unfold v3_check_string. rewrite A, E. unfold w_ones, w_zero. rewrite !str_eqb_head by discriminate. reflexivity.
  - unfold q_from_string. cbv zeta. unfold q_check_string. rewrite A, E. unfold keywords_check, w_identity. rewrite !str_eqb_head by discriminate.
    reflexivity.
Qed.
(** And an exponent with a fraction is accepted but its fraction is dropped: "[1,2,3e+2.5]" is read as (1, 2, 300) *)
Theorem C145_dropped_refuted : forall rand, v3_from_string rand [91; 49; 44; 50; 44; 51; 101; 43; 50; 46; 53; 93]%nat = Some (mkV 1 2 300).
Proof.
  intros rand. unfold v3_from_string. cbv zeta. change (lower _) with [91; 49; 44; 50; 44; 51; 101; 43; 50; 46; 53; 93]%nat.
  unfold w_ones, w_zero. rewrite !str_eqb_head by discriminate. change (v3_check_string _) with true. cbn [negb]. change (startswith _ _) with false. cbv iota.
  unfold to_array. change (strip _ _) with [49; 44; 50; 44; 51; 101; 43; 50; 46; 53]%nat. cbv zeta. change (length _) with 10%nat.
  change (fromstring 11 [49; 44; 50; 44; 51; 101; 43; 50; 46; 53]%nat) with [IZR 1 / 1; IZR 2 / 1; IZR 3 / 1 * powerRZ 10 2].
  apply f_equal. unfold powerRZ. change (Pos.to_nat 2) with 2%nat. cbn [pow]. f_equal; field.
Qed.
(** The inputs of the theorems exist: " -12.5 " and the range "rand:0:1" *)
Definition demo : item := mkI [32%nat] (mkN true [49; 50]%nat (Some [53%nat]) None) [32%nat].
Lemma demo_good : good_item demo.
Proof.
  assert (B : blanks [32%nat]) by (constructor; [auto|constructor]). split; [exact B|]. split; [|exact B]. split; [|split; [|exact I]].
  - right. exists 49%nat, [50%nat]. split; auto. split; [lia|]. constructor; [unfold digit; lia | constructor].
  - right. exists 53%nat, []. split; auto. split; [lia|constructor].
Qed.
Lemma demo_value : item_value demo = -12.5.
Proof. unfold item_value, value, mantissa, scale, demo. cbn [i_num n_expo n_neg n_whole n_frac dec length pow INR]. lra. Qed.
Example C143_nonvacuous : forall rand,
  v3_from_string rand (list_text [demo; demo; demo]) = Some (mkV (-12.5) (-12.5) (-12.5)) /\
  v3_from_string rand (w_rand ++ item_text demo ++ 58%nat :: item_text demo) = Some (rand (-12.5) (-12.5)) /\
  v3_from_string rand [90; 101; 82; 111]%nat = Some (mkV 0 0 0) /\ compact (list_text (map bare [mkN true [49; 50]%nat (Some [53%nat]) None])).
Proof.
  intros rand. rewrite <- demo_value. pose proof demo_good as G. repeat split.
  - apply (C143_list rand (list_text [demo; demo; demo]) [demo; demo; demo]) with (more := []); auto; discriminate.
  - apply (C143_rand rand _ demo demo); auto.
  - repeat (apply Forall_cons; [repeat split; lia|]). constructor.
Qed.
Example C144_nonvacuous : forall rand,
  q_from_string rand (list_text [demo; demo; demo; demo]) = Some (mkQ (-12.5) (-12.5) (-12.5) (-12.5)) /\
  q_from_string rand ([114; 121; 58]%nat ++ item_text demo) = Some (q_Ry (-12.5 * PI / 180)) /\
  q_from_string rand (w_ru ++ item_text demo ++ 58%nat :: list_text [demo; demo; demo]) = Some (q_Ru (-12.5 * PI / 180) (mkV (-12.5) (-12.5) (-12.5))).
Proof.
  intros rand. rewrite <- demo_value. pose proof demo_good as G. repeat split.
  - apply (C144_list rand (list_text [demo; demo; demo; demo]) [demo; demo; demo; demo]) with (more := []); auto; discriminate.
  - apply (q_axis_gen rand _ 121 demo); auto.
  - apply (C144_about rand _ demo demo demo demo []); auto.
Qed.
Example C145_nonvacuous : padded_numeral (mkN false [48%nat] (Some [48; 53]%nat) None) /\ padded_numeral (mkN false [49%nat] None (Some (true, [48; 53]%nat))) /\
  value (mkN false [48%nat] (Some [48; 53]%nat) None) = 0.05.
Proof.
  assert (P : padded [48; 53]%nat). { exists 53%nat, []. split; auto. constructor; [unfold digit; lia | constructor]. }
  split; [|split].
  - split; [left; reflexivity|]. left. exists [48; 53]%nat. auto.
  - split; [right; exists 49%nat, []; split; auto; split; [lia|constructor]|]. right. split; [exact I|]. exists true, [48; 53]%nat. auto.
  - unfold value, mantissa, scale. cbn [n_expo n_neg n_whole n_frac dec length pow INR]. lra.
Qed.
Print Assumptions C143_words. Print Assumptions C143_list. Print Assumptions C143_rand. Print Assumptions C143_only.
Print Assumptions C144_identity. Print Assumptions C144_axis. Print Assumptions C144_about. Print Assumptions C144_list. Print Assumptions C144_only.
Print Assumptions C145_padded_refuted. Print Assumptions C145_dropped_refuted.
