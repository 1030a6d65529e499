(** What the documented text formats mean: decimal numerals, lists of them, and what they stand for.  Independent of the parsers. *)
From Verif Require Import Base VecModel QuatModel StringModel.
Open Scope R_scope.

(** A digit string without a superfluous zero in front: "0", "7", "120" but not "07" *)
Definition digit (c : nat) : Prop := (48 <= c <= 57)%nat.
Definition plain (ds : str) : Prop := ds = [48%nat] \/ exists d t, ds = d :: t /\ (49 <= d <= 57)%nat /\ Forall digit t.
(** The whole number written by a digit string *)
Fixpoint dec (ds : str) : R := match ds with [] => 0 | c :: t => (INR c - 48) * 10 ^ length t + dec t end.

(** A decimal numeral such as -12.5 or 3.25e-4 (a bare minus sign, an optional fraction, an optional signed exponent) *)
Record numeral := mkN { n_neg : bool; n_whole : str; n_frac : option str; n_expo : option (bool * str) }.
Definition sign_text (b : bool) : str := if b then [45%nat] else [].
Definition frac_text (f : option str) : str := match f with Some ds => 46%nat :: ds | None => [] end.
Definition expo_text (e : option (bool * str)) : str := match e with Some (b, ds) => 101%nat :: (if b then 45%nat else 43%nat) :: ds | None => [] end.
Definition text (n : numeral) : str := sign_text (n_neg n) ++ n_whole n ++ frac_text (n_frac n) ++ expo_text (n_expo n).
Definition mantissa (n : numeral) : R := dec (n_whole n) + match n_frac n with Some ds => dec ds / 10 ^ length ds | None => 0 end.
Definition scale (e : option (bool * str)) : R -> R := fun x =>
  match e with Some (true, ds) => x / Rpower 10 (dec ds) | Some (false, ds) => x * Rpower 10 (dec ds) | None => x end.
Definition value (n : numeral) : R := scale (n_expo n) ((if n_neg n then -1 else 1) * mantissa n).
(** Numerals all of whose digit strings are plain *)
Definition plain_numeral (n : numeral) : Prop :=
  plain (n_whole n) /\ (match n_frac n with Some ds => plain ds | None => True end) /\ (match n_expo n with Some (_, ds) => plain ds | None => True end).

(** Blanks, and a numeral with blanks around it *)
Definition blanks (b : str) : Prop := Forall (fun c => c = 32%nat \/ c = 9%nat \/ c = 10%nat \/ c = 13%nat) b.
Record item := mkI { i_pre : str; i_num : numeral; i_post : str }.
Definition good_item (i : item) : Prop := blanks (i_pre i) /\ plain_numeral (i_num i) /\ blanks (i_post i).
Definition item_text (i : item) : str := i_pre i ++ text (i_num i) ++ i_post i.
Fixpoint joined (l : list str) : str := match l with [] => [] | [x] => x | x :: t => x ++ 44%nat :: joined t end.
(** "[a, b, c, ...]" *)
Definition list_text (l : list item) : str := 91%nat :: joined (map item_text l) ++ [93%nat].
Definition item_value (i : item) : R := value (i_num i).

(** Numerals with a zero too many: a fraction or an exponent that starts with 0 and goes on with another digit, as in 0.05 or 1e-05 *)
Definition padded (ds : str) : Prop := exists d t, ds = 48%nat :: d :: t /\ Forall digit (d :: t).
Definition padded_numeral (n : numeral) : Prop :=
  plain (n_whole n) /\
  ((exists ds, n_frac n = Some ds /\ padded ds) \/
   ((match n_frac n with Some ds => plain ds | None => True end) /\ exists b ds, n_expo n = Some (b, ds) /\ padded ds)).
