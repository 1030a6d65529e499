(** Lemmas about write_xml: escaping, reading, the tree. *)
From Coq Require Import String Ascii.
From Verif Require Import Base QuatModel VecModel VolModel RigidTypes ConSpec XmlModel XmlSpec.
Open Scope R_scope.

(** ** lists *)
Lemma map_some_forall2 {A B} (f : A -> option B) l ys : map_some f l = Some ys <-> Forall2 (fun x y => f x = Some y) l ys.
Proof.
  revert ys. induction l as [|x t IH]; intros ys; cbn [map_some].
  - split; [intros [= <-]; constructor|intros H; inversion H; reflexivity].
  - split.
    + destruct (f x) as [y|] eqn:E; [|discriminate]. destruct (map_some f t) as [zs|] eqn:E2; [|discriminate]. intros [= <-]. constructor; [auto|]. apply IH. reflexivity.
    + intros H. inversion H as [|x' y' t' zs H1 H2]; subst. rewrite H1. apply IH in H2. rewrite H2. reflexivity.
Qed.
Lemma map_some_ex {A B} (f : A -> option B) l : (exists ys, map_some f l = Some ys) <-> Forall (fun x => f x <> None) l.
Proof.
  induction l as [|x t IH]; cbn [map_some]; [split; [constructor|eauto]|]. split.
  - intros [ys H]. destruct (f x) eqn:E; [|discriminate]. constructor; [congruence|]. apply IH. destruct (map_some f t); [eauto|discriminate].
  - intros H. inversion H as [|x' t' H1 H2]; subst. destruct (f x); [|congruence]. apply IH in H2 as [ys ->]. eauto.
Qed.
Lemma forall2_len {A B} (R : A -> B -> Prop) l m : Forall2 R l m -> length l = length m.
Proof. induction 1; cbn [length]; congruence. Qed.
Lemma forall2_nth {A B} (R : A -> B -> Prop) l m i x : Forall2 R l m -> nth_error l i = Some x -> exists y, nth_error m i = Some y /\ R x y.
Proof.
  intros H. revert i. induction H as [|a b l m Hab H IH]; intros [|i] E; cbn in *; try discriminate; eauto.
  injection E as <-. eauto.
Qed.
Lemma forall2_mono {A B} (R S : A -> B -> Prop) l m : (forall a b, In a l -> R a b -> S a b) -> Forall2 R l m -> Forall2 S l m.
Proof. intros H F. induction F as [|a b l m Hab F IH]; constructor; [apply H; auto; left; reflexivity|]. apply IH. intros x y Hx. apply H. right; auto. Qed.
Lemma forall2_comp {A B C} (R : A -> B -> Prop) (S : B -> C -> Prop) (T : A -> C -> Prop) l m n :
  (forall a b c, In a l -> R a b -> S b c -> T a c) -> Forall2 R l m -> Forall2 S m n -> Forall2 T l n.
Proof.
  intros H F. revert n. induction F as [|a b l m Hab F IH]; intros n G; inversion G as [|b' c m' n' G1 G2]; subst; constructor.
  - eapply H; eauto. left; reflexivity.
  - apply IH; auto. intros x y z Hx. apply H. right; auto.
Qed.
Lemma enumerate_nth {A} (l : list A) i x : nth_error l i = Some x -> nth_error (enumerate l) i = Some (i, x).
Proof.
  unfold enumerate. assert (G : forall (l : list A) k i x, nth_error l i = Some x -> nth_error (combine (seq k (length l)) l) i = Some ((k + i)%nat, x)).
  { intros m. induction m as [|y m IH]; intros k [|j] z E; cbn in *; try discriminate.
    - injection E as <-. f_equal. f_equal. lia.
    - rewrite (IH (S k) j z E). do 2 f_equal. lia. }
  intros E. apply (G l 0%nat i x E).
Qed.
Lemma enumerate_snd {A} (l : list A) : map snd (enumerate l) = l.
Proof. unfold enumerate. generalize 0%nat. induction l as [|x t IH]; intros k; cbn; [reflexivity|]. rewrite IH. reflexivity. Qed.
Lemma enumerate_len {A} (l : list A) : length (enumerate l) = length l.
Proof. unfold enumerate. rewrite combine_length, seq_length. lia. Qed.

(** ** escaping *)
Definition esc (c : nat) : name :=
  if Nat.eqb c 38 then lit "&amp;" else if Nat.eqb c 60 then lit "&lt;" else if Nat.eqb c 62 then lit "&gt;" else if Nat.eqb c 34 then lit "&quot;"
  else if Nat.eqb c 13 then lit "&#13;" else if Nat.eqb c 10 then lit "&#10;" else if Nat.eqb c 9 then lit "&#09;" else [c].
Lemma replace_app c r a b : replace c r (a ++ b) = replace c r a ++ replace c r b.
Proof. unfold replace. apply flat_map_app. Qed.
Lemma escape_cons c s : escape (c :: s) = esc c ++ escape s.
Proof.
  unfold escape. change (c :: s) with ([c] ++ s). rewrite !replace_app. f_equal. unfold esc.
  do 7 (match goal with |- context [if Nat.eqb c ?k then _ else _] => destruct (Nat.eqb_spec c k); [subst c; reflexivity|] end).
  unfold replace at 7. cbn [flat_map app]. rewrite (proj2 (Nat.eqb_neq c 38)) by auto. cbn [app].
  unfold replace at 6. cbn [flat_map app]. rewrite (proj2 (Nat.eqb_neq c 60)) by auto. cbn [app].
  unfold replace at 5. cbn [flat_map app]. rewrite (proj2 (Nat.eqb_neq c 62)) by auto. cbn [app].
  unfold replace at 4. cbn [flat_map app]. rewrite (proj2 (Nat.eqb_neq c 34)) by auto. cbn [app].
  unfold replace at 3. cbn [flat_map app]. rewrite (proj2 (Nat.eqb_neq c 13)) by auto. cbn [app].
  unfold replace at 2. cbn [flat_map app]. rewrite (proj2 (Nat.eqb_neq c 10)) by auto. cbn [app].
  unfold replace at 1. cbn [flat_map app]. rewrite (proj2 (Nat.eqb_neq c 9)) by auto. reflexivity.
Qed.
Lemma reads_esc c r s : reads r s -> reads (esc c ++ r) (c :: s).
Proof.
  intros H. unfold esc.
  destruct (Nat.eqb_spec c 38) as [->|N1]; [apply (reads_entity (lit "amp") 38 r s ent_amp H)|].
  destruct (Nat.eqb_spec c 60) as [->|N2]; [apply (reads_entity (lit "lt") 60 r s ent_lt H)|].
  destruct (Nat.eqb_spec c 62) as [->|N3]; [apply (reads_entity (lit "gt") 62 r s ent_gt H)|].
  destruct (Nat.eqb_spec c 34) as [->|N4]; [apply (reads_entity (lit "quot") 34 r s ent_quot H)|].
  destruct (Nat.eqb_spec c 13) as [->|N5].
  { apply (reads_entity (35%nat :: [49; 51]%nat) 13 r s); auto. apply (ent_char [49; 51]%nat); [discriminate|]. constructor; [lia|constructor; [lia|constructor]]. }
  destruct (Nat.eqb_spec c 10) as [->|N6].
  { apply (reads_entity (35%nat :: [49; 48]%nat) 10 r s); auto. apply (ent_char [49; 48]%nat); [discriminate|]. constructor; [lia|constructor; [lia|constructor]]. }
  destruct (Nat.eqb_spec c 9) as [->|N7].
  { apply (reads_entity (35%nat :: [48; 57]%nat) 9 r s); auto. apply (ent_char [48; 57]%nat); [discriminate|]. constructor; [lia|constructor; [lia|constructor]]. }
  apply reads_char; auto. unfold is_white. lia.
Qed.
Lemma reads_escape s : reads (escape s) s.
Proof. induction s as [|c s IH]; [constructor|]. rewrite escape_cons. apply reads_esc. exact IH. Qed.
Lemma entity_no_semi e c : entity e c -> ~ In 59%nat e.
Proof.
  intros H. inversion H; subst; try (cbv; intuition discriminate). intros [K|K]; [discriminate|].
  rewrite Forall_forall in *. match goal with F : forall x, _ -> (48 <= x <= 57)%nat |- _ => specialize (F _ K) end. lia.
Qed.
Lemma split_first x (a b r s : name) : ~ In x a -> ~ In x b -> a ++ x :: r = b ++ x :: s -> a = b /\ r = s.
Proof.
  revert b. induction a as [|y a IH]; intros [|z b] Ha Hb H; cbn in H.
  - injection H; auto.
  - injection H as <- _. exfalso. apply Hb. left; reflexivity.
  - injection H as -> _. exfalso. apply Ha. left; reflexivity.
  - injection H as <- H. destruct (IH b) as [-> ->]; auto. intros K; apply Ha; right; auto. intros K; apply Hb; right; auto.
Qed.
Lemma entity_det e c d : entity e c -> entity e d -> c = d.
Proof.
  intros H K. inversion H; subst; inversion K; subst; try reflexivity.
Qed.
Lemma reads_det r s t : reads r s -> reads r t -> s = t.
Proof.
  intros H. revert t. induction H as [|c r s N1 N2 N3 N4 H IH|c r s W H IH|e c r s E H IH]; intros t K.
  - inversion K. reflexivity.
  - inversion K as [|c' r' s' M1 M2 M3 M4 K'|c' r' s' W' K'|e' c' r' s' E' K']; subst; [f_equal; auto|contradiction|congruence].
  - inversion K as [|c' r' s' M1 M2 M3 M4 K'|c' r' s' W' K'|e' c' r' s' E' K']; subst; [contradiction|f_equal; auto|unfold is_white in W; lia].
  - inversion K as [|c' r' s' M1 M2 M3 M4 K'|c' r' s' W' K'|e' c' r' s' E' K' EQ]; subst; [congruence|unfold is_white in *; lia|].
    apply split_first in EQ as [-> ->]; [|eapply entity_no_semi; eauto..]. f_equal; [eapply entity_det; eauto|auto].
Qed.
Lemma reads_no_lt r s : reads r s -> ~ In 60%nat r.
Proof.
  induction 1 as [|c r s N1 N2 N3 N4 H IH|c r s W H IH|e c r s E H IH]; intros K.
  - destruct K.
  - destruct K as [K|K]; auto.
  - destruct K as [K|K]; auto. unfold is_white in W. lia.
  - destruct K as [K|K]; [discriminate|]. apply in_app_iff in K as [K|[K|K]]; auto; [|discriminate].
    inversion E; subst; try (cbv in K; intuition discriminate). destruct K as [K|K]; [discriminate|].
    rewrite Forall_forall in *. match goal with F : forall x, _ -> (48 <= x <= 57)%nat |- _ => specialize (F _ K) end. lia.
Qed.
Lemma escape_inj a b : escape a = escape b -> a = b.
Proof. intros H. eapply reads_det; [apply reads_escape|]. rewrite H. apply reads_escape. Qed.

(** ** tuples *)
Definition tuple_text (a b : name) : name := lit "('" ++ a ++ lit "', '" ++ b ++ lit "')".
Lemma plain_repr m : plain m -> repr m = [39%nat] ++ m ++ [39%nat].
Proof.
  intros H. unfold repr. assert (Q : repr_quote m = 39%nat).
  { unfold repr_quote. destruct (existsb (Nat.eqb 39) m) eqn:E; [|reflexivity]. apply existsb_exists in E as (c & Hc & E). apply Nat.eqb_eq in E. subst c.
    unfold plain in H. rewrite Forall_forall in H. apply H in Hc. unfold plain_char in Hc. lia. }
  rewrite Q. f_equal. f_equal. induction H as [|c m Hc H IH]; [reflexivity|]. cbn [flat_map]. rewrite IH.
  - unfold repr_char. unfold plain_char in Hc. destruct Hc as (H0 & H1 & H2 & H3 & H4 & H5).
    rewrite (proj2 (Nat.eqb_neq c 39)), (proj2 (Nat.eqb_neq c 92)), (proj2 (Nat.eqb_neq c 10)), (proj2 (Nat.eqb_neq c 13)), (proj2 (Nat.eqb_neq c 9)) by lia. reflexivity.
  - clear - H. unfold repr_quote. destruct (existsb (Nat.eqb 39) m) eqn:E; [|reflexivity]. apply existsb_exists in E as (c & Hc & E). apply Nat.eqb_eq in E. subst c.
    rewrite Forall_forall in H. apply H in Hc. unfold plain_char in Hc. lia.
Qed.
Lemma plain_ok a b : plain a -> plain b -> attr_text (Pair a b) = Some (tuple_text a b) \/ attr_text (Pair a b) = None.
Proof.
  intros Ha Hb. unfold attr_text. destruct existsb; [right; reflexivity|left]. rewrite !plain_repr by assumption. unfold tuple_text. f_equal.
  change (lit "('") with (lit "(" ++ [39%nat]). change (lit "', '") with ([39%nat] ++ lit ", " ++ [39%nat]). change (lit "')") with ([39%nat] ++ lit ")"). rewrite <- !app_assoc. reflexivity.
Qed.
Lemma reads_plain m r s : Forall (fun c => c <> 38%nat /\ c <> 60%nat /\ c <> 34%nat /\ ~ is_white c) m -> reads r s -> reads (m ++ r) (m ++ s).
Proof. induction 1 as [|c m (H1 & H2 & H3 & H4) H IH]; intros K; [exact K|]. cbn [app]. apply reads_char; auto. Qed.
Lemma plain_readable m : plain m -> Forall (fun c => c <> 38%nat /\ c <> 60%nat /\ c <> 34%nat /\ ~ is_white c) m.
Proof. apply Forall_impl. intros c. unfold plain_char, is_white. lia. Qed.
Lemma reads_tuple a b : plain a -> plain b -> reads (tuple_text a b) (tuple_text a b).
Proof.
  intros Ha Hb. unfold tuple_text. rewrite <- (app_nil_r (lit "('" ++ _)). apply reads_plain; [|constructor].
  repeat (apply Forall_app; split); try (apply plain_readable; assumption); cbv [lit map list_ascii_of_string nat_of_ascii N_of_ascii N_of_digits N.to_nat Pos.to_nat]; repeat (apply Forall_cons; [unfold is_white; cbn; lia|]); apply Forall_nil.
Qed.
Lemma tuple_inj a b c d : plain a -> plain b -> plain c -> plain d -> tuple_text a b = tuple_text c d -> a = c /\ b = d.
Proof.
  intros Ha Hb Hc Hd H. assert (N : forall m, plain m -> ~ In 39%nat m).
  { intros m P K. unfold plain in P. rewrite Forall_forall in P. apply P in K. unfold plain_char in K. lia. }
  unfold tuple_text in H. apply app_inv_head in H. change (lit "', '") with (39%nat :: lit ", '") in H. cbn [app] in H.
  apply split_first in H as [-> H]; [|apply N; assumption..]. split; [reflexivity|]. apply (app_inv_head (lit ", '")) in H.
  change (lit "')") with (39%nat :: lit ")") in H. apply split_first in H as [-> _]; [reflexivity|apply N; assumption..].
Qed.

(** ** trees *)
Lemma xml_ind2 {A} (P : xml A -> Prop) : (forall t a c, Forall P c -> P (Elem t a c)) -> forall x, P x.
Proof.
  intros H. fix IH 1. intros [t a c]. apply H. induction c as [|y c IHc]; constructor; [apply IH|exact IHc].
Qed.
Lemma file_of_eq t a c : file_of (Elem t a c) = match map_some attr_pair a with Some a' => match map_some file_of c with Some c' => Some (Elem t a' c') | None => None end | None => None end.
Proof.
  cbn [file_of]. destruct (map_some attr_pair a); [|reflexivity].
  match goal with |- match ?x with _ => _ end = _ => replace x with (map_some file_of c) end; [reflexivity|].
  induction c as [|y c IH]; [reflexivity|]. cbn [map_some]. rewrite IH. reflexivity.
Qed.
(** what a reader sees of a value *)
Definition seen (v : value) : name := match v with Str s => s | Pair a b => tuple_text a b end.
Fixpoint view (x : xml value) : xml name :=
  match x with Elem t a c => Elem t (map (fun kv => (fst kv, seen (snd kv))) a) (map view c) end.
Definition plain_value (v : value) : Prop := match v with Str _ => True | Pair a b => plain a /\ plain b end.
Fixpoint tree_all (P : value -> Prop) (x : xml value) : Prop :=
  match x with Elem t a c => Forall (fun kv => P (snd kv)) a /\ (fix all l := match l with [] => True | y :: l' => tree_all P y /\ all l' end) c end.
Lemma tree_all_eq P t a c : tree_all P (Elem t a c) <-> Forall (fun kv => P (snd kv)) a /\ Forall (tree_all P) c.
Proof.
  cbn [tree_all]. apply and_iff_compat_l. induction c as [|y c IH]; [split; constructor|]. rewrite Forall_cons_iff. rewrite IH. reflexivity.
Qed.
Notation plain_tree := (tree_all plain_value).
Lemma attr_seen kv kv' : plain_value (snd kv) -> attr_pair kv = Some kv' -> fst kv' = fst kv /\ reads (snd kv') (seen (snd kv)).
Proof.
  intros P E. unfold attr_pair in E. destruct (attr_text (snd kv)) as [r|] eqn:Et; [|discriminate]. injection E as <-. cbn [fst snd]. split; [reflexivity|].
  destruct (snd kv) as [s|u v]; cbn [seen]; [injection Et as <-; apply reads_escape|]. destruct P as [Qu Qv].
  destruct (plain_ok u v Qu Qv) as [K|K]; rewrite K in Et; [injection Et as <-; apply reads_tuple; assumption|discriminate].
Qed.
Lemma file_reads_view x : plain_tree x -> forall f, file_of x = Some f -> file_reads f (view x).
Proof.
  induction x as [t a c IH] using xml_ind2. intros HP f HF. apply tree_all_eq in HP as [Pa Pc]. rewrite file_of_eq in HF.
  destruct (map_some attr_pair a) as [a'|] eqn:Ea; [|discriminate]. destruct (map_some file_of c) as [c'|] eqn:Ec; [|discriminate]. injection HF as <-. cbn [view]. constructor.
  - apply map_some_forall2 in Ea. clear - Ea Pa. induction Ea as [|x y l m E F IH]; cbn [map]; [constructor|]. inversion Pa as [|x' l' P1 P2]; subst. constructor; [|auto].
    apply attr_seen; assumption.
  - apply map_some_forall2 in Ec. clear - Ec Pc IH. induction Ec as [|x y l m E F IHl]; cbn [map]; [constructor|]. inversion Pc as [|x' l' P1 P2]; subst. inversion IH as [|x' l' Q1 Q2]; subst. constructor; auto.
Qed.
Lemma file_reads_det x : forall y z, file_reads x y -> file_reads x z -> y = z.
Proof.
  induction x as [t a c IH] using xml_ind2. intros y z Hy Hz. inversion Hy as [t1 a1 b1 c1 d1 A1 C1]; subst. inversion Hz as [t2 a2 b2 c2 d2 A2 C2]; subst. f_equal.
  - clear - A1 A2. revert b2 A2. induction A1 as [|[k v] [k1 v1] l m [E F] A IH]; intros b2 A2; inversion A2 as [|p [k2 v2] l' m' [E2 F2] A2']; subst; [reflexivity|].
    cbn [fst snd] in *. subst. f_equal; [f_equal; eapply reads_det; eauto|auto].
  - clear - C1 C2 IH. revert d2 C2. induction C1 as [|u v l m F C IHl]; intros d2 C2; inversion C2 as [|p w l' m' F2 C2']; subst; [reflexivity|]. inversion IH; subst. f_equal; auto.
Qed.
Lemma file_of_ok x : (exists f, file_of x = Some f) <-> tree_all (fun v => attr_text v <> None) x.
Proof.
  induction x as [t a c IH] using xml_ind2. rewrite file_of_eq, tree_all_eq.
  assert (Ia : (exists ys, map_some attr_pair a = Some ys) <-> Forall (fun kv => attr_text (snd kv) <> None) a).
  { rewrite map_some_ex. split; apply Forall_impl; intros kv; unfold attr_pair; destruct attr_text; congruence. }
  assert (Ic : (exists ys, map_some file_of c = Some ys) <-> Forall (tree_all (fun v => attr_text v <> None)) c).
  { rewrite map_some_ex. clear Ia. induction IH as [|y c Hy IH IHc]; [split; constructor|]. rewrite !Forall_cons_iff, IHc, <- Hy. apply and_iff_compat_r.
    destruct (file_of y); split; [eauto|discriminate|congruence|intros [f K]; discriminate]. }
  rewrite <- Ia, <- Ic. split.
  - intros [f HF]. destruct (map_some attr_pair a) as [a'|]; [|discriminate]. destruct (map_some file_of c) as [c'|]; [|discriminate]. split; eauto.
  - intros [[a' ->] [c' ->]]. eauto.
Qed.
