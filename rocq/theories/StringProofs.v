(** Lemmas about the parsers *)
From Verif Require Import Base VecModel QuatModel RotModel StringModel StringSpec.
From Coq Require Import Lia Lra.
Open Scope R_scope.

Lemma is_ws_iff c : is_ws c = true <-> (c = 32 \/ c = 9 \/ c = 10 \/ c = 13)%nat.
Proof. unfold is_ws. rewrite !orb_true_iff, !Nat.eqb_eq. tauto. Qed.
Lemma is_digit_iff c : is_digit c = true <-> digit c.
Proof. unfold is_digit, digit. rewrite andb_true_iff, !Nat.leb_le. tauto. Qed.
Lemma digit_not_ws c : digit c -> is_ws c = false.
Proof. intros H. destruct (is_ws c) eqn:E; auto. apply is_ws_iff in E. unfold digit in H. lia. Qed.
Lemma skip_all p b s : Forall (fun c => p c = true) b -> skip p (b ++ s) = skip p s.
Proof. induction 1; cbn; auto. rewrite H. auto. Qed.
Lemma blanks_ws b : blanks b -> Forall (fun c => is_ws c = true) b.
Proof. apply Forall_impl. intros. apply is_ws_iff. auto. Qed.
Lemma skip_blanks b s : blanks b -> skip is_ws (b ++ s) = skip is_ws s.
Proof. intros. apply skip_all, blanks_ws; auto. Qed.
Lemma skip_none p c s : p c = false -> skip p (c :: s) = c :: s.
Proof. intros E. cbn. rewrite E. auto. Qed.
Definition nodigit (s : str) : Prop := match s with [] => True | c :: _ => is_digit c = false end.
Lemma skip_digits ds s : Forall digit ds -> nodigit s -> skip is_digit (ds ++ s) = s.
Proof.
  intros H N. rewrite skip_all by (eapply Forall_impl; [|exact H]; intros; apply is_digit_iff; auto).
  destruct s; auto. apply skip_none. exact N.
Qed.
Lemma take_digits ds s : Forall digit ds -> nodigit s -> take is_digit (ds ++ s) = ds.
Proof.
  induction 1; intros N; cbn. { destruct s; cbn; auto. cbn in N. rewrite N. auto. }
  replace (is_digit x) with true by (symmetry; apply is_digit_iff; auto). f_equal. auto.
Qed.
Lemma plain_digits ds : plain ds -> Forall digit ds.
Proof. intros [-> | (d & t & -> & H & F)]; apply Forall_cons; auto; unfold digit in *; lia. Qed.
Lemma plain_head ds : plain ds -> exists d t, ds = d :: t /\ digit d.
Proof. intros [-> | (d & t & -> & H & F)]; eexists _, _; split; eauto; unfold digit; lia. Qed.

(** ** pyparsing *)
Definition ws_ok (p : parser) : Prop := forall b s, blanks b -> p (b ++ s) = p s.
Lemma lit_ws w : ws_ok (lit w). Proof. intros b s H. unfold lit. rewrite skip_blanks; auto. Qed.
Lemma integer_ws : ws_ok p_integer. Proof. intros b s H. unfold p_integer. rewrite skip_blanks; auto. Qed.
Lemma seq_ws p q : ws_ok p -> ws_ok (seqp p q). Proof. intros H b s B. unfold seqp. rewrite H; auto. Qed.
Lemma alt_ws p q : ws_ok p -> ws_ok q -> ws_ok (altp p q). Proof. intros H G b s B. unfold altp. rewrite H, G; auto. Qed.
Lemma unsigned_ws : ws_ok p_unsigned. Proof. exact (alt_ws _ _ (seq_ws _ _ (seq_ws _ _ integer_ws)) integer_ws). Qed.
Lemma signed_ws : ws_ok p_signed. Proof. exact (alt_ws _ _ (seq_ws _ _ (lit_ws _)) unsigned_ws). Qed.
Lemma number_ws : ws_ok p_number.
Proof.
  assert (H : forall c, ws_ok (p_scientific c)) by (intros c; exact (seq_ws _ _ (seq_ws _ _ (seq_ws _ _ signed_ws)))).
  exact (alt_ws _ _ (alt_ws _ _ (H _) (H _)) signed_ws).
Qed.
Lemma list_ws : ws_ok p_list.
Proof. intros b s B. unfold p_list. rewrite (seq_ws (lit [c_open]) p_number (lit_ws _) b s B). reflexivity. Qed.

Lemma lit_hit c s : is_ws c = false -> lit [c] (c :: s) = Some s.
Proof. intros E. unfold lit. rewrite skip_none by auto. cbn. rewrite Nat.eqb_refl. auto. Qed.
Lemma lit_miss c d s : is_ws d = false -> c <> d -> lit [c] (d :: s) = None.
Proof. intros E N. unfold lit. rewrite skip_none by auto. cbn. destruct (Nat.eqb_spec c d); congruence. Qed.
Lemma lit_miss_digit c ds s : Forall digit ds -> ds <> [] -> (c < 48 \/ 57 < c)%nat -> lit [c] (ds ++ s) = None.
Proof.
  intros F N L. destruct ds; [congruence|]. inversion F; subst. cbn. apply lit_miss. apply digit_not_ws; auto. unfold digit in *. lia.
Qed.
Lemma p_integer_plain ds s : plain ds -> nodigit s -> p_integer (ds ++ s) = Some s.
Proof.
  intros [-> | (d & t & -> & H & F)] N.
  - unfold p_integer. reflexivity.
  - unfold p_integer. cbn [app]. rewrite skip_none by (apply digit_not_ws; unfold digit; lia).
    destruct (Nat.eqb_spec d 48); [lia|]. replace (is_digit d) with true by (symmetry; apply is_digit_iff; unfold digit; lia).
    rewrite skip_digits; auto.
Qed.
Lemma p_integer_padded ds s : padded ds -> exists r d, p_integer (ds ++ s) = Some (d :: r) /\ digit d.
Proof. intros (d & t & -> & F). exists (t ++ s), d. inversion F; subst. split; auto. Qed.
Lemma plain_nonempty ds : plain ds -> ds <> [].
Proof. intros [-> | (d & t & -> & _)]; discriminate. Qed.
(** what may follow a number *)
Definition stops (s : str) : Prop := match skip is_ws s with [] => True | c :: _ => (c = 44 \/ c = 93 \/ c = 58)%nat end.
Lemma stops_nodigit s : stops s -> nodigit s.
Proof.
  unfold stops, nodigit. destruct s as [|c t]; auto. cbn [skip]. destruct (is_ws c) eqn:E.
  - intros _. apply is_ws_iff in E. destruct (is_digit c) eqn:D; auto. apply is_digit_iff in D. unfold digit in D. lia.
  - intros H. destruct (is_digit c) eqn:D; auto. apply is_digit_iff in D. unfold digit in D. lia.
Qed.
Lemma stops_lit c s : stops s -> (c <> 44 /\ c <> 93 /\ c <> 58)%nat -> lit [c] s = None.
Proof.
  unfold stops, lit. destruct (skip is_ws s) as [|d t]; auto. intros H N. cbn. destruct (Nat.eqb_spec c d); auto. lia.
Qed.
Lemma p_unsigned_plain w f s :
  plain w -> match f with Some ds => plain ds | None => lit [c_dot] s = None end -> nodigit s -> p_unsigned (w ++ frac_text f ++ s) = Some s.
Proof.
  intros W F N. unfold p_unsigned, altp, p_float. destruct f as [ds|]; cbn [frac_text].
  - unfold seqp at 1 2. rewrite p_integer_plain; auto; [|reflexivity]. cbn [app]. change c_dot with 46%nat. rewrite lit_hit by reflexivity.
    rewrite p_integer_plain; auto.
  - cbn [app]. unfold seqp. rewrite p_integer_plain; auto. rewrite F. auto.
Qed.
Lemma p_signed_plain b w f s :
  plain w -> match f with Some ds => plain ds | None => lit [c_dot] s = None end -> nodigit s -> p_signed (sign_text b ++ w ++ frac_text f ++ s) = Some s.
Proof.
  intros W F N. unfold p_signed, altp, seqp. destruct b; cbn [sign_text app].
  - change c_minus with 45%nat. rewrite lit_hit by reflexivity. rewrite p_unsigned_plain; auto.
  - rewrite lit_miss_digit; [apply p_unsigned_plain; auto | apply plain_digits; auto | apply plain_nonempty; auto | cbv; lia].
Qed.
Lemma nodigit_e e s : e <> None -> nodigit (expo_text e ++ s). Proof. destruct e as [[b ds]|]; [reflexivity|congruence]. Qed.
Lemma p_number_plain n s : plain_numeral n -> stops s -> p_number (text n ++ s) = Some s.
Proof.
  intros (W & F & E) St. destruct n as [b w f e]. cbn [n_neg n_whole n_frac n_expo] in *. unfold text. cbn [n_neg n_whole n_frac n_expo].
  rewrite <- !app_assoc.
  assert (Sg : p_signed (sign_text b ++ w ++ frac_text f ++ expo_text e ++ s) = Some (expo_text e ++ s)).
  { apply p_signed_plain; auto.
    - destruct f; auto. destruct e as [[x ds]|]; [reflexivity|]. apply stops_lit; auto. cbv; lia.
    - destruct e as [[x ds]|]; [reflexivity|]. apply stops_nodigit; auto. }
  unfold p_number, altp, p_scientific, seqp. rewrite Sg. destruct e as [[x ds]|].
  - cbn [expo_text app]. change c_e with 101%nat. rewrite lit_hit by reflexivity.
    assert (U : p_unsigned (ds ++ s) = Some s).
    { pose proof (p_unsigned_plain ds None s) as P. cbn [frac_text app] in P. apply P; auto. apply stops_lit; auto; cbv; lia. apply stops_nodigit; auto. }
    destruct x.
    + change c_plus with 43%nat. rewrite lit_miss; [|reflexivity|lia]. change c_minus with 45%nat. rewrite lit_hit by reflexivity. rewrite U. auto.
    + change c_plus with 43%nat. rewrite lit_hit by reflexivity. rewrite U. auto.
  - cbn [expo_text app]. rewrite stops_lit; auto. cbv; lia.
Qed.
Lemma p_number_padded n s : padded_numeral n -> exists d r, p_number (text n ++ s) = Some (d :: r) /\ digit d.
Proof.
  intros (W & H). destruct n as [b w f e]. cbn [n_neg n_whole n_frac n_expo] in *. unfold text. cbn [n_neg n_whole n_frac n_expo].
  rewrite <- !app_assoc. destruct H as [(ds & -> & P) | (F & x & ds & -> & P)].
  - destruct (p_integer_padded ds (expo_text e ++ s) P) as (r & d & I & D). exists d, r. split; auto.
    assert (Sg : p_signed (sign_text b ++ w ++ frac_text (Some ds) ++ expo_text e ++ s) = Some (d :: r)).
    { assert (U : p_unsigned (w ++ frac_text (Some ds) ++ expo_text e ++ s) = Some (d :: r)).
      { unfold p_unsigned, altp, p_float, seqp. rewrite p_integer_plain; auto; [|reflexivity]. cbn [frac_text app]. change c_dot with 46%nat.
        rewrite lit_hit by reflexivity. rewrite I. auto. }
      unfold p_signed, altp, seqp. destruct b; cbn [sign_text app].
      - change c_minus with 45%nat. rewrite lit_hit by reflexivity. rewrite U. auto.
      - rewrite lit_miss_digit; [exact U | apply plain_digits; auto | apply plain_nonempty; auto | cbv; lia]. }
    unfold p_number, altp, p_scientific, seqp. rewrite Sg. change c_e with 101%nat.
    rewrite lit_miss; [reflexivity | apply digit_not_ws; auto | unfold digit in D; lia].
  - assert (Sg : p_signed (sign_text b ++ w ++ frac_text f ++ expo_text (Some (x, ds)) ++ s) = Some (expo_text (Some (x, ds)) ++ s)).
    { apply p_signed_plain; auto; [destruct f; auto; reflexivity | reflexivity]. }
    destruct P as (d & t & -> & F'). inversion F' as [|? ? Dd Ft]; subst.
    assert (U : p_unsigned ((48%nat :: d :: t) ++ s) = Some (d :: t ++ s)).
    { unfold p_unsigned, altp, p_float, seqp. unfold p_integer at 1. cbn [skip app is_ws Nat.eqb orb].
      change (lit [c_dot]) with (lit [46%nat]). rewrite lit_miss; [reflexivity | apply digit_not_ws; auto | unfold digit in Dd; lia]. }
    exists d, (t ++ s). split; auto. unfold p_number, altp, p_scientific, seqp. rewrite Sg. cbn [expo_text app]. change c_e with 101%nat. rewrite lit_hit by reflexivity.
    cbn [app] in U. change c_plus with 43%nat. change c_minus with 45%nat. destruct x.
    + rewrite lit_miss; [|reflexivity|lia]. rewrite lit_hit by reflexivity. rewrite U. auto.
    + rewrite lit_hit by reflexivity. rewrite U. auto.
Qed.

(** ** values *)
Lemma fold_dec ds : forall a, Forall digit ds -> IZR (fold_left (fun a c => (10 * a + (Z.of_nat c - 48))%Z) ds a) = IZR a * 10 ^ length ds + dec ds.
Proof.
  induction ds as [|c t IH]; intros a F; cbn [fold_left dec length]. { cbn. ring. }
  inversion F; subst. rewrite IH by auto. rewrite plus_IZR, mult_IZR, minus_IZR, <- INR_IZR_INZ. cbn [pow]. ring.
Qed.
Lemma digits_value_dec ds : Forall digit ds -> IZR (digits_value ds) = dec ds.
Proof. intros F. unfold digits_value. rewrite fold_dec by auto. ring. Qed.
Lemma dec_app a b : dec (a ++ b) = dec a * 10 ^ length b + dec b.
Proof. induction a; cbn [app dec]. ring. rewrite IHa, app_length, pow_add. ring. Qed.
Lemma digits_value_pos ds : Forall digit ds -> (0 <= digits_value ds)%Z.
Proof.
  unfold digits_value. assert (G : forall l a, Forall digit l -> (0 <= a)%Z -> (0 <= fold_left (fun a c => (10 * a + (Z.of_nat c - 48))%Z) l a)%Z).
  { induction l; cbn [fold_left]; intros x F H; auto. inversion F; subst. apply IHl; auto. unfold digit in *. lia. }
  intros. apply G; auto. lia.
Qed.
Lemma powerRZ_dec ds : Forall digit ds -> powerRZ 10 (digits_value ds) = Rpower 10 (dec ds).
Proof.
  intros F. pose proof (digits_value_pos ds F) as P. rewrite <- digits_value_dec by auto.
  rewrite <- (Z2Nat.id (digits_value ds)) by auto. rewrite <- pow_powerRZ, <- INR_IZR_INZ, Rpower_pow by lra. reflexivity.
Qed.
Lemma powerRZ_dec_neg ds : Forall digit ds -> powerRZ 10 (- digits_value ds) = / Rpower 10 (dec ds).
Proof. intros F. rewrite powerRZ_neg'. rewrite powerRZ_dec; auto. Qed.

Definition nd_e (s : str) : Prop := match s with [] => True | c :: _ => is_digit c = false /\ c <> 46%nat /\ c <> 101%nat end.
Lemma stops_nd s : stops s -> nd_e s.
Proof.
  unfold stops, nd_e. destruct s as [|c t]; auto. cbn [skip]. destruct (is_ws c) eqn:E.
  - intros _. apply is_ws_iff in E. split; [|lia]. destruct (is_digit c) eqn:D; auto. apply is_digit_iff in D. unfold digit in D. lia.
  - intros H. split; [|lia]. destruct (is_digit c) eqn:D; auto. apply is_digit_iff in D. unfold digit in D. lia.
Qed.
Lemma read_float_ws b s : blanks b -> read_float (b ++ s) = read_float s.
Proof. intros. unfold read_float. rewrite skip_blanks; auto. Qed.
Definition read_sign (s : str) : bool * str :=
  match s with c :: t => if Nat.eqb c c_minus then (true, t) else if Nat.eqb c c_plus then (false, t) else (false, s) | [] => (false, s) end.
Lemma read_sign_spec b w s : plain w -> read_sign (sign_text b ++ w ++ s) = (b, w ++ s).
Proof.
  intros W. destruct b; [reflexivity|]. destruct (plain_head w W) as (d & t & -> & D). cbn [sign_text app read_sign].
  unfold digit in D. destruct (Nat.eqb_spec d c_minus); [cbv in e; lia|]. destruct (Nat.eqb_spec d c_plus); [cbv in e; lia|]. auto.
Qed.
Definition read_frac (s : str) : str * str :=
  match s with c :: t => if Nat.eqb c c_dot then (take is_digit t, skip is_digit t) else ([], s) | [] => ([], s) end.
Definition read_expo (m : R) (s : str) : R * str :=
  match s with
  | c :: t =>
    if Nat.eqb c c_e then
      let '(eneg, u) := read_sign t in
      match take is_digit u with
      | [] => (m, s)
      | es => let k := digits_value es in (m * powerRZ 10 (if eneg : bool then - k else k), skip is_digit u)
      end
    else (m, s)
  | [] => (m, s)
  end.
Lemma read_float_eq s : read_float s =
  let '(neg, s) := read_sign (skip is_ws s) in
  let '(fp, r) := read_frac (skip is_digit s) in
  match take is_digit s ++ fp with
  | [] => None
  | ds => let m := IZR (digits_value ds) / 10 ^ length fp in Some (read_expo (if neg : bool then - m else m) r)
  end.
Proof.
  unfold read_float, read_sign at 1. destruct (match skip is_ws s with [] => _ | _ => _ end) as [neg s1].
  unfold read_frac. destruct (match skip is_digit s1 with [] => _ | _ => _ end) as [fp r].
  destruct (take is_digit s1 ++ fp) as [|d ds]; [reflexivity|]. cbv zeta. unfold read_expo. destruct r as [|c t]; [reflexivity|]. destruct (Nat.eqb c c_e); [|reflexivity].
  unfold read_sign. destruct (match t with [] => _ | _ => _ end) as [en u]. destruct (take is_digit u); reflexivity.
Qed.
Lemma read_float_plain n s : plain_numeral n -> stops s -> read_float (text n ++ s) = Some (value n, s).
Proof.
  intros (W & F & E) St. destruct n as [b w f e]. cbn [n_neg n_whole n_frac n_expo] in *. rewrite read_float_eq.
  unfold text, value, mantissa. cbn [n_neg n_whole n_frac n_expo]. rewrite <- !app_assoc.
  assert (Sk : forall u, skip is_ws (sign_text b ++ w ++ u) = sign_text b ++ w ++ u).
  { intros u. destruct b; [reflexivity|]. destruct (plain_head w W) as (d & t & -> & D). cbn [sign_text app]. apply skip_none, digit_not_ws; auto. }
  rewrite Sk, read_sign_spec by auto. clear Sk.
  assert (Wd := plain_digits w W). pose proof (stops_nd s St) as Nd.
  assert (Nx : nodigit (frac_text f ++ expo_text e ++ s)).
  { destruct f; [reflexivity|]. destruct e as [[x ds]|]; [reflexivity|]. apply stops_nodigit; auto. }
  rewrite skip_digits, take_digits by auto.
  assert (Ex : forall m, read_expo m (expo_text e ++ s) = (scale e m, s)).
  { intros m. destruct e as [[x ds]|]; cbn [expo_text app scale].
    - cbn [read_expo]. change (Nat.eqb 101 c_e) with true. cbv iota.
      assert (RS : read_sign ((if x then 45 else 43)%nat :: ds ++ s) = (x, ds ++ s)) by (destruct x; reflexivity).
      rewrite RS. pose proof (plain_digits ds E) as Fd. rewrite take_digits, skip_digits by (auto; apply stops_nodigit; auto).
      destruct ds as [|d t]; [destruct (plain_nonempty _ E); reflexivity|]. cbv zeta.
      destruct x; [rewrite powerRZ_dec_neg by auto | rewrite powerRZ_dec by auto]; reflexivity.
    - unfold read_expo. destruct s as [|c t]; auto. cbn in Nd. destruct (Nat.eqb_spec c c_e); [cbv in e; lia | auto]. }
  assert (Fr : read_frac (frac_text f ++ expo_text e ++ s) = (match f with Some ds => ds | None => [] end, expo_text e ++ s)).
  { destruct f as [ds|]; cbn [frac_text app].
    - cbn [read_frac]. change (Nat.eqb 46 c_dot) with true. cbv iota. pose proof (plain_digits ds F).
      assert (nodigit (expo_text e ++ s)) by (destruct e as [[x u]|]; [reflexivity | apply stops_nodigit; auto]). rewrite take_digits, skip_digits; auto.
    - destruct e as [[x u]|]; [reflexivity|]. cbn [expo_text app]. unfold read_frac. destruct s as [|c t]; auto. cbn in Nd. destruct (Nat.eqb_spec c c_dot); [cbv in e; lia | auto]. }
  rewrite Fr. destruct (plain_head w W) as (d & t & Ew & _). rewrite Ew at 1. cbn [app]. rewrite app_comm_cons, <- Ew. cbv zeta. rewrite Ex. f_equal. apply (f_equal (fun z => (z, s))). f_equal.
  set (fd := match f with Some ds => ds | None => [] end).
  assert (Fd : Forall digit fd) by (destruct f; [apply plain_digits; auto | constructor]).
  assert (V : IZR (digits_value (w ++ fd)) / 10 ^ length fd = dec w + match f with Some ds => dec ds / 10 ^ length ds | None => 0 end).
  { rewrite digits_value_dec by (apply Forall_app; auto). rewrite dec_app. pose proof (pow_nonzero 10 (length fd) ltac:(lra)).
    destruct f; unfold fd in *; [|cbn]; field; auto. }
  rewrite V. destruct b; ring.
Qed.
