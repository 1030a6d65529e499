(** Lists, splitting and stripping; and what the parsers accept *)
From Verif Require Import Base VecModel QuatModel RotModel StringModel StringSpec StringProofs.
From Coq Require Import Lia Lra.
Open Scope R_scope.

Lemma skip_idem s : skip is_ws (skip is_ws s) = skip is_ws s.
Proof. induction s as [|c t IH]; cbn; auto. destruct (is_ws c) eqn:E; auto. cbn. rewrite E. auto. Qed.
Lemma read_float_skip s : read_float (skip is_ws s) = read_float s.
Proof. unfold read_float. rewrite skip_idem. reflexivity. Qed.
Lemma fromstring_skip f s : fromstring f (skip is_ws s) = fromstring f s.
Proof. destruct f; cbn [fromstring]; auto. rewrite read_float_skip. reflexivity. Qed.
Lemma skip_only_blanks b : blanks b -> skip is_ws b = [].
Proof. intros H. rewrite <- (app_nil_r b), skip_blanks by auto. reflexivity. Qed.
Lemma stops_blanks b s : blanks b -> stops s -> stops (b ++ s).
Proof. intros H. unfold stops. rewrite skip_blanks by auto. auto. Qed.
Lemma stops_cons c s : (c = 44 \/ c = 93 \/ c = 58)%nat -> stops (c :: s).
Proof. intros H. unfold stops. rewrite skip_none; [auto|]. destruct H as [ -> | [ -> | -> ]]; reflexivity. Qed.
Lemma stops_nil : stops []. Proof. exact I. Qed.

(** one item *)
Lemma number_item i s : good_item i -> stops s -> p_number (item_text i ++ s) = Some (i_post i ++ s).
Proof.
  intros (A & B & C) St. unfold item_text. rewrite <- !app_assoc. rewrite number_ws by auto. apply p_number_plain; auto. apply stops_blanks; auto.
Qed.
Lemma read_item i s : good_item i -> stops s -> read_float (item_text i ++ s) = Some (item_value i, i_post i ++ s).
Proof.
  intros (A & B & C) St. unfold item_text. rewrite <- !app_assoc. rewrite read_float_ws by auto. apply read_float_plain; auto. apply stops_blanks; auto.
Qed.
Lemma py_float_item i : good_item i -> py_float (item_text i) = Some (item_value i).
Proof.
  intros G. unfold py_float. rewrite <- (app_nil_r (item_text i)), read_item by (auto; exact stops_nil). rewrite app_nil_r, skip_only_blanks by apply G. reflexivity.
Qed.

(** lists of items *)
Definition tails (l : list item) : str := concat (map (fun i => 44%nat :: item_text i) l).
Lemma joined_tails i l : joined (map item_text (i :: l)) = item_text i ++ tails l.
Proof.
  revert i. induction l as [|j l IH]; intros i; [cbn; rewrite app_nil_r; auto|]. change (joined (map item_text (i :: j :: l))) with (item_text i ++ 44%nat :: joined (map item_text (j :: l))).
  rewrite IH. reflexivity.
Qed.
Lemma fromstring_items l : forall f, (length l <= f)%nat -> Forall good_item l -> fromstring f (joined (map item_text l)) = map item_value l.
Proof.
  induction l as [|i l IH]; intros f L F. { destruct f; reflexivity. }
  destruct f as [|f]; [cbn in L; lia|]. cbn in L. inversion F as [|? ? Gi Gl]; subst. rewrite joined_tails. cbn [fromstring map].
  assert (St : stops (tails l)) by (destruct l; [exact stops_nil | apply stops_cons; auto]).
  rewrite read_item by auto. f_equal. rewrite skip_blanks by apply Gi. destruct l as [|j l]; [reflexivity|].
  change (tails (j :: l)) with (44%nat :: item_text j ++ tails l). rewrite skip_none by reflexivity. change (Nat.eqb 44 c_comma) with true. cbv iota.
  rewrite fromstring_skip, <- joined_tails. apply IH; auto. lia.
Qed.
Lemma item_nonempty i : good_item i -> (1 <= length (item_text i))%nat.
Proof.
  intros (_ & (W & _) & _). unfold item_text, text. rewrite !app_length. destruct (plain_head _ W) as (d & t & -> & _). cbn. lia.
Qed.
Lemma items_length l : Forall good_item l -> (length l <= length (joined (map item_text l)))%nat.
Proof.
  destruct l as [|i l]; [cbn; lia|]. rewrite joined_tails, app_length. intros F. inversion F as [|? ? Gi Gl]; subst. pose proof (item_nonempty i Gi).
  assert (length l <= length (tails l))%nat. { clear. induction l; cbn; auto. unfold tails in *. rewrite app_length. lia. } cbn. lia.
Qed.
Definition next : parser := seqp (lit [c_comma]) p_number.
Lemma next_item b i s : blanks b -> good_item i -> stops s -> next (b ++ 44%nat :: item_text i ++ s) = Some (i_post i ++ s).
Proof.
  intros B G St. unfold next, seqp. rewrite lit_ws by auto. change c_comma with 44%nat. rewrite lit_hit by reflexivity. apply number_item; auto.
Qed.
Lemma stops_tails l s : stops s -> stops (tails l ++ s).
Proof. intros H. destruct l; auto. apply stops_cons; auto. Qed.
Lemma many_items l : forall fuel b s, blanks b -> Forall good_item l -> (length l <= fuel)%nat -> stops s ->
  exists b', blanks b' /\ manyp fuel next (b ++ tails l ++ s) = manyp (fuel - length l) next (b' ++ s).
Proof.
  induction l as [|i l IH]; intros fuel b s B F L St. { exists b. split; auto. cbn. rewrite Nat.sub_0_r. reflexivity. }
  destruct fuel as [|fuel]; [cbn in L; lia|]. cbn in L. inversion F as [|? ? Gi Gl]; subst. cbn [manyp].
  change (tails (i :: l) ++ s) with ((44%nat :: item_text i ++ tails l) ++ s). cbn [app]. rewrite <- app_assoc.
  rewrite next_item; [|auto|auto|apply stops_tails; auto]. destruct (IH fuel (i_post i) s) as (b' & B' & E); auto; [apply Gi | lia|]. exists b'. split; auto.
Qed.
Lemma many_stop fuel b s : blanks b -> manyp fuel next (b ++ 93%nat :: s) = b ++ 93%nat :: s.
Proof.
  intros B. destruct fuel; auto. cbn [manyp]. unfold next, seqp. rewrite lit_ws by auto. rewrite lit_miss; auto. discriminate.
Qed.
Lemma tails_length l : (length l <= length (tails l))%nat.
Proof. induction l; cbn; auto. unfold tails in *. rewrite app_length. lia. Qed.
Lemma list_text_eq i l s : list_text (i :: l) ++ s = 91%nat :: item_text i ++ tails l ++ 93%nat :: s.
Proof. unfold list_text. rewrite joined_tails. cbn [app]. rewrite <- !app_assoc. reflexivity. Qed.
Lemma p_list_items l s : l <> [] -> Forall good_item l -> p_list (list_text l ++ s) = Some s.
Proof.
  intros N F. destruct l as [|i l]; [congruence|]. inversion F as [|? ? Gi Gl]; subst. rewrite list_text_eq. unfold p_list, seqp at 1. change c_open with 91%nat. rewrite lit_hit by reflexivity.
  assert (St : stops (93%nat :: s)) by (apply stops_cons; auto). rewrite number_item by (auto; apply stops_tails; auto). fold next.
  destruct (many_items l (length (i_post i ++ tails l ++ 93%nat :: s)) (i_post i) (93%nat :: s)) as (b & B & E); auto; [apply Gi | rewrite !app_length; pose proof (tails_length l); lia |].
  rewrite E, many_stop, lit_ws by auto. apply lit_hit. reflexivity.
Qed.
(** a padded numeral is not accepted *)
Lemma digit_next fuel d s : digit d -> manyp fuel next (d :: s) = d :: s.
Proof.
  intros D. destruct fuel; auto. cbn [manyp]. unfold next, seqp. change c_comma with 44%nat. rewrite lit_miss; auto; [apply digit_not_ws; auto | unfold digit in D; lia].
Qed.
Lemma p_list_padded l b n s : Forall good_item l -> blanks b -> padded_numeral n ->
  p_list (91%nat :: joined (map item_text l ++ [b ++ text n]) ++ s) = None.
Proof.
  intros F B P. destruct (p_number_padded n s P) as (d & r & E & D).
  assert (Close : lit [c_close] (d :: r) = None). { apply lit_miss; [apply digit_not_ws; auto | unfold digit in D; cbv; lia]. }
  unfold p_list, seqp at 1. change c_open with 91%nat. rewrite lit_hit by reflexivity. fold next. destruct l as [|i l].
  - cbn [map app joined]. rewrite <- app_assoc, number_ws, E by auto. rewrite digit_next; auto.
  - inversion F as [|? ? Gi Gl]; subst.
    assert (J : joined (map item_text (i :: l) ++ [b ++ text n]) = item_text i ++ tails l ++ 44%nat :: b ++ text n).
    { clear. revert i. induction l as [|j l IH]; intros i; [reflexivity|]. change (joined (map item_text (i :: j :: l) ++ [b ++ text n])) with (item_text i ++ 44%nat :: joined (map item_text (j :: l) ++ [b ++ text n])).
      rewrite IH. change (tails (j :: l)) with (44%nat :: item_text j ++ tails l). cbn [app]. rewrite <- app_assoc. reflexivity. }
    rewrite J, <- !app_assoc. cbn [app]. rewrite <- app_assoc.
    assert (St : stops (44%nat :: b ++ text n ++ s)) by (apply stops_cons; auto). rewrite number_item by (auto; apply stops_tails; auto).
    remember (length (i_post i ++ tails l ++ 44%nat :: b ++ text n ++ s)) as fuel eqn:Ef.
    assert (Lf : (S (length l) <= fuel)%nat). { rewrite Ef, !app_length. cbn. pose proof (tails_length l). lia. }
    destruct (many_items l fuel (i_post i) (44%nat :: b ++ text n ++ s)) as (b' & B' & E'); auto; [apply Gi | lia |]. rewrite E'.
    destruct (fuel - length l)%nat as [|k] eqn:K; [lia|]. cbn [manyp]. unfold next at 1, seqp at 1. rewrite lit_ws by auto. change c_comma with 44%nat. rewrite lit_hit by reflexivity.
    rewrite number_ws, E by auto. rewrite digit_next; auto.
Qed.

(** ** characters of a list *)
Definition clean (c : nat) : Prop := (is_ws c = true \/ digit c \/ c = 45 \/ c = 43 \/ c = 46 \/ c = 101 \/ c = 44)%nat.
Lemma clean_digits ds : Forall digit ds -> Forall clean ds. Proof. apply Forall_impl. unfold clean. auto. Qed.
Lemma item_clean i : good_item i -> Forall clean (item_text i).
Proof.
  intros (A & (W & F & E) & C). unfold item_text, text.
  assert (Bl : forall b, blanks b -> Forall clean b) by (intros b H; eapply Forall_impl; [|exact (blanks_ws b H)]; unfold clean; auto).
  repeat (apply Forall_app; split); auto.
  - destruct (n_neg _); [constructor; [unfold clean; tauto | constructor] | constructor].
  - apply clean_digits, plain_digits; auto.
  - destruct (n_frac _); [|constructor]. constructor; [unfold clean; tauto | apply clean_digits, plain_digits; auto].
  - destruct (n_expo _) as [[b ds]|]; [|constructor]. constructor; [unfold clean; tauto|]. constructor; [unfold clean; destruct b; tauto | apply clean_digits, plain_digits; auto].
Qed.
Lemma tails_clean l : Forall good_item l -> Forall clean (tails l).
Proof.
  induction 1; [constructor|]. cbn. constructor; [unfold clean; tauto|]. apply Forall_app. split; auto. apply item_clean; auto.
Qed.
Lemma joined_clean l : Forall good_item l -> Forall clean (joined (map item_text l)).
Proof. destruct l as [|i l]; [constructor|]. intros F. inversion F; subst. rewrite joined_tails. apply Forall_app. split; [apply item_clean | apply tails_clean]; auto. Qed.
Lemma clean_facts c : clean c -> (c <> 91 /\ c <> 93 /\ c <> 58 /\ (c < 65 \/ 90 < c) /\ c <> 114 /\ c <> 97 /\ c <> 110 /\ c <> 100 /\ c <> 117 /\ c <> 120 /\ c <> 121 /\ c <> 122)%nat.
Proof. unfold clean, digit. rewrite is_ws_iff. lia. Qed.
Lemma lower_id s : Forall (fun c => (c < 65 \/ 90 < c)%nat) s -> lower s = s.
Proof.
  induction 1; cbn [lower map]; auto. f_equal; auto. destruct (Nat.leb_spec 65 x), (Nat.leb_spec x 90); cbn [andb]; auto. lia.
Qed.
Lemma strip_spec chars l m r c t t' c' : Forall (fun x => existsb (Nat.eqb x) chars = true) l -> Forall (fun x => existsb (Nat.eqb x) chars = true) r ->
  m = c :: t -> existsb (Nat.eqb c) chars = false -> m = t' ++ [c'] -> existsb (Nat.eqb c') chars = false -> strip chars (l ++ m ++ r) = m.
Proof.
  intros L R M1 C1 M2 C2. unfold strip. set (p := fun x => existsb (Nat.eqb x) chars). rewrite skip_all by exact L.
  assert (S1 : skip p (m ++ r) = m ++ r) by (rewrite M1; apply skip_none; exact C1). rewrite S1, rev_app_distr.
  rewrite skip_all by (apply Forall_rev; exact R). assert (S2 : skip p (rev m) = rev m) by (rewrite M2, rev_app_distr; apply skip_none; exact C2).
  rewrite S2. apply rev_involutive.
Qed.
Lemma clean_not_in chars c : clean c -> Forall (fun x => ~ clean x) chars -> existsb (Nat.eqb c) chars = false.
Proof.
  intros H F. destruct (existsb (Nat.eqb c) chars) eqn:E; auto. apply existsb_exists in E. destruct E as (x & I & Q). apply Nat.eqb_eq in Q. subst x.
  rewrite Forall_forall in F. destruct (F c I H).
Qed.
Lemma not_clean_list chars : Forall (fun c => (c = 91 \/ c = 93 \/ c = 58 \/ c = 114 \/ c = 97 \/ c = 110 \/ c = 100 \/ c = 117 \/ c = 120 \/ c = 121 \/ c = 122)%nat) chars -> Forall (fun x => ~ clean x) chars.
Proof. apply Forall_impl. intros c H K. apply clean_facts in K. lia. Qed.
Lemma strip_clean chars l m r : Forall (fun x => existsb (Nat.eqb x) chars = true) l -> Forall (fun x => existsb (Nat.eqb x) chars = true) r ->
  m <> [] -> Forall clean m -> Forall (fun x => ~ clean x) chars -> strip chars (l ++ m ++ r) = m.
Proof.
  intros L R N F C. destruct m as [|c t] eqn:Em; [congruence|]. rewrite <- Em in *. destruct (exists_last N) as (t' & c' & E').
  apply (strip_spec chars l m r c t t' c'); auto.
  - apply clean_not_in; auto. rewrite Em in F. inversion F; auto.
  - apply clean_not_in; auto. rewrite E' in F. apply Forall_app in F. destruct F as [_ F]. inversion F; auto.
Qed.
Lemma to_array_items l : l <> [] -> Forall good_item l -> to_array (list_text l) = map item_value l.
Proof.
  intros N F. unfold to_array, list_text. change (91%nat :: joined (map item_text l) ++ [93%nat]) with ([91%nat] ++ joined (map item_text l) ++ [93%nat]).
  rewrite (strip_clean [c_open; c_close] [91%nat] (joined (map item_text l)) [93%nat]);
    try (repeat constructor; fail); auto.
  - cbv zeta. apply fromstring_items; auto. pose proof (items_length l F). lia.
  - intros E. pose proof (items_length l F) as H. rewrite E in H. destruct l; [congruence | cbn in H; lia].
  - apply joined_clean; auto.
  - apply not_clean_list. repeat apply Forall_cons; auto; cbv; auto.
Qed.
Lemma split_none s : Forall (fun c => c <> 58%nat) s -> split_colon s = [s].
Proof. induction 1; cbn; auto. destruct (Nat.eqb_spec x c_colon); [cbv in e; lia|]. rewrite IHForall. auto. Qed.
Lemma split_one s t : Forall (fun c => c <> 58%nat) s -> split_colon (s ++ 58%nat :: t) = s :: split_colon t.
Proof. induction 1; cbn; auto. destruct (Nat.eqb_spec x c_colon); [cbv in e; lia|]. rewrite IHForall. auto. Qed.
Lemma clean_colon s : Forall clean s -> Forall (fun c => c <> 58%nat) s.
Proof. apply Forall_impl. intros c H. apply clean_facts in H. tauto. Qed.
Lemma clean_lower s : Forall clean s -> Forall (fun c => (c < 65 \/ 90 < c)%nat) s.
Proof. apply Forall_impl. intros c H. apply clean_facts in H. tauto. Qed.
Lemma line_end_blanks b : blanks b -> accepts p_line_end b = true.
Proof.
  intros B. unfold accepts, p_line_end. assert (H : forall b, blanks b -> match skip (fun c => is_ws c && negb (Nat.eqb c c_nl)) b with [] => True | c :: _ => c = c_nl end).
  { clear. induction 1 as [|c t H]; cbn [skip]; auto. destruct (is_ws c) eqn:E; [|assert (is_ws c = true) by (apply is_ws_iff; tauto); congruence].
    destruct (Nat.eqb_spec c c_nl); cbn [andb negb]; auto. }
  specialize (H b B). destruct (skip _ b); auto. subst n. rewrite Nat.eqb_refl. auto.
Qed.
Lemma str_eqb_head c d s t : c <> d -> str_eqb (c :: s) (d :: t) = false.
Proof. intros N. unfold str_eqb. destruct (list_eq_dec _ _ _); congruence. Qed.
Lemma str_eqb_refl s : str_eqb s s = true.
Proof. unfold str_eqb. destruct (list_eq_dec _ _ _); congruence. Qed.
Lemma str_eqb_true s t : str_eqb s t = true -> s = t.
Proof. unfold str_eqb. destruct (list_eq_dec _ _ _); congruence. Qed.

(** ** What is accepted: strings without blanks and without the letter e *)
Definition tidy (s : str) : Prop := Forall (fun c => is_ws c = false /\ c <> 101%nat) s.
Lemma tidy_skip s : tidy s -> skip is_ws s = s.
Proof. intros H. destruct s; auto. inversion H; subst. apply skip_none. tauto. Qed.
Lemma tidy_app a b : tidy (a ++ b) -> tidy a /\ tidy b. Proof. apply Forall_app. Qed.
Lemma lit_inv w s r : tidy s -> lit w s = Some r -> s = w ++ r.
Proof.
  intros T H. unfold lit in H. rewrite tidy_skip in H by auto. clear T. revert s H. induction w as [|c w IH]; intros s H; cbn in H; [cbn; congruence|].
  destruct s as [|d s]; [discriminate|]. destruct (Nat.eqb_spec c d); [|discriminate]. subst d. cbn. f_equal. auto.
Qed.
Lemma take_skip p s : s = take p s ++ skip p s.
Proof. induction s as [|c t IH]; cbn; auto. destruct (p c); cbn; auto. f_equal. auto. Qed.
Lemma take_all p s : Forall (fun c => p c = true) (take p s).
Proof. induction s as [|c t IH]; cbn; auto. destruct (p c) eqn:E; constructor; auto. Qed.
Lemma integer_inv s r : tidy s -> p_integer s = Some r -> exists ds, plain ds /\ s = ds ++ r.
Proof.
  intros T H. unfold p_integer in H. rewrite tidy_skip in H by auto. destruct s as [|c t]; [discriminate|].
  destruct (Nat.eqb_spec c 48). { inversion H; subst. exists [48%nat]. split; auto. left; auto. }
  destruct (is_digit c) eqn:D; [|discriminate]. inversion H; subst. exists (c :: take is_digit t). split; [|cbn; f_equal; apply take_skip].
  right. eexists _, _. split; eauto. apply is_digit_iff in D. unfold digit in D. split; [lia|]. eapply Forall_impl; [|apply take_all]. intros; apply is_digit_iff; auto.
Qed.
Lemma unsigned_inv s r : tidy s -> p_unsigned s = Some r ->
  exists w f, plain w /\ (match f with Some ds => plain ds | None => True end) /\ s = w ++ frac_text f ++ r.
Proof.
  intros T H. unfold p_unsigned, altp in H. destruct (p_float s) as [r'|] eqn:E.
  - inversion H; subst r'. unfold p_float, seqp in E. destruct (p_integer s) as [u|] eqn:Eu; [|discriminate].
    destruct (integer_inv _ _ T Eu) as (w & W & ->). apply tidy_app in T. destruct T as [_ T]. destruct (lit [c_dot] u) as [v|] eqn:Ev; [|discriminate].
    apply lit_inv in Ev; auto. subst u. cbn in T. inversion T as [|? ? _ T']; subst. destruct (integer_inv _ _ T' E) as (f & F & ->). exists w, (Some f). repeat split; auto.
  - destruct (integer_inv _ _ T H) as (w & W & ->). exists w, None. repeat split; auto.
Qed.
Lemma signed_inv s r : tidy s -> p_signed s = Some r ->
  exists b w f, plain w /\ (match f with Some ds => plain ds | None => True end) /\ s = sign_text b ++ w ++ frac_text f ++ r.
Proof.
  intros T H. unfold p_signed, altp, seqp in H. destruct (lit [c_minus] s) as [u|] eqn:E.
  - destruct (p_unsigned u) as [r'|] eqn:Eu.
    + inversion H; subst r'. apply lit_inv in E; auto. subst s. inversion T as [|? ? _ T']; subst. destruct (unsigned_inv _ _ T' Eu) as (w & f & W & F & ->). exists true, w, f. repeat split; auto.
    + destruct (unsigned_inv _ _ T H) as (w & f & W & F & ->). exists false, w, f. repeat split; auto.
  - destruct (unsigned_inv _ _ T H) as (w & f & W & F & ->). exists false, w, f. repeat split; auto.
Qed.
Lemma number_inv s r : tidy s -> p_number s = Some r -> exists n, plain_numeral n /\ s = text n ++ r.
Proof.
  intros T H. assert (Sc : forall c, p_scientific c s = None).
  { intros c. unfold p_scientific, seqp. destruct (p_signed s) as [u|] eqn:E; auto. destruct (signed_inv _ _ T E) as (b & w & f & _ & _ & ->).
    rewrite !app_assoc in T. apply tidy_app in T. destruct T as [_ T]. destruct (lit [c_e] u) as [v|] eqn:Ev; auto. apply lit_inv in Ev; auto. subst u. inversion T as [|? ? [_ X] _]; subst. destruct X. reflexivity. }
  unfold p_number, altp in H. rewrite !Sc in H. destruct (signed_inv _ _ T H) as (b & w & f & W & F & ->). exists (mkN b w f None). split; [repeat split; auto|].
  unfold text. cbn. rewrite app_nil_r, <- !app_assoc. reflexivity.
Qed.
Definition bare (n : numeral) : item := mkI [] n [].
Lemma bare_good n : plain_numeral n -> good_item (bare n). Proof. intros H. split; [apply Forall_nil | split; [exact H | apply Forall_nil]]. Qed.
Lemma bare_text n : item_text (bare n) = text n. Proof. unfold item_text. cbn. apply app_nil_r. Qed.
Lemma many_inv fuel : forall s, tidy s -> exists ns, Forall plain_numeral ns /\ s = tails (map bare ns) ++ manyp fuel next s.
Proof.
  induction fuel as [|fuel IH]; intros s T; cbn [manyp]. { exists []. split; auto. }
  destruct (next s) as [r|] eqn:E; [|exists []; split; auto]. unfold next, seqp in E. destruct (lit [c_comma] s) as [u|] eqn:Eu; [|discriminate].
  apply lit_inv in Eu; auto. subst s. inversion T as [|? ? _ T']; subst. destruct (number_inv _ _ T' E) as (n & Pn & ->). apply tidy_app in T'. destruct T' as [_ Tr].
  destruct (IH r Tr) as (ns & Fn & Er). exists (n :: ns). split; [constructor; auto|]. rewrite Er at 1. change (tails (map bare (n :: ns))) with (44%nat :: item_text (bare n) ++ tails (map bare ns)).
  rewrite bare_text. cbn [app]. rewrite <- !app_assoc. reflexivity.
Qed.
Lemma list_inv s r : tidy s -> p_list s = Some r -> exists ns, ns <> [] /\ Forall plain_numeral ns /\ s = list_text (map bare ns) ++ r.
Proof.
  intros T H. unfold p_list, seqp at 1 in H. destruct (lit [c_open] s) as [u|] eqn:Eu; [|discriminate]. apply lit_inv in Eu; auto. subst s. inversion T as [|? ? _ T']; subst.
  destruct (p_number u) as [v|] eqn:Ev; [|discriminate]. destruct (number_inv _ _ T' Ev) as (n & Pn & ->). apply tidy_app in T'. destruct T' as [_ Tv].
  fold next in H. destruct (many_inv (length v) v Tv) as (ns & Fn & E). rewrite E in Tv. apply tidy_app in Tv. destruct Tv as [_ Tm]. apply lit_inv in H; auto.
  exists (n :: ns). split; [discriminate|]. split; [constructor; auto|]. cbn [map]. rewrite list_text_eq, bare_text. rewrite E, H at 1. reflexivity.
Qed.
Lemma line_end_inv s r : tidy s -> p_line_end s = Some r -> s = [].
Proof.
  intros T H. destruct s as [|c t]; auto. inversion T as [|? ? [W _] _]; subst. unfold p_line_end in H. cbn [skip] in H. rewrite W in H. cbn [andb] in H.
  destruct (Nat.eqb_spec c c_nl); [subst c; discriminate | discriminate].
Qed.
