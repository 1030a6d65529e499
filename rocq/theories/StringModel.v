(** Model of rainbow/util/parse_string.py and of from_string of rainbow/math/{vector3,quaternion}.py.
    A string is the list of its character codes.  Only ASCII strings are modelled (the regular expression \d and str.lower also know
    other alphabets).  pyparsing matches by ordered choice: an alternative that has matched is never revisited; white space in front of
    every token is skipped.  Its expandtabs does not change what is white space and is left out.
    np.fromstring reads numbers until something does not fit and returns what it has read (with a DeprecationWarning); the words nan and
    inf, which it and float() also know, never get past the checks and are left out.  float64 rounding is left out. *)
From Verif Require Import Base VecModel QuatModel RotModel.
Open Scope R_scope.

Definition str := list nat.
(** pyparsing's default white space, also white space for float() and numpy *)
Definition is_ws (c : nat) : bool := Nat.eqb c 32 || Nat.eqb c 9 || Nat.eqb c 10 || Nat.eqb c 13.
Definition is_digit (c : nat) : bool := Nat.leb 48 c && Nat.leb c 57.
Definition is_alpha (c : nat) : bool := Nat.leb 97 c && Nat.leb c 122 || Nat.leb 65 c && Nat.leb c 90.
Fixpoint skip (p : nat -> bool) (s : str) : str := match s with c :: t => if p c then skip p t else s | [] => [] end.
Fixpoint take (p : nat -> bool) (s : str) : str := match s with c :: t => if p c then c :: take p t else [] | [] => [] end.
Fixpoint prefix (w s : str) : option str :=
  match w, s with [], _ => Some s | a :: w', c :: s' => if Nat.eqb a c then prefix w' s' else None | _, [] => None end.

(** ** pyparsing: a parser takes the rest of the input and gives what is left after it *)
Definition parser := str -> option str.
Definition lit (w : str) : parser := fun s => prefix w (skip is_ws s).
Definition seqp (p q : parser) : parser := fun s => match p s with Some r => q r | None => None end.
Definition altp (p q : parser) : parser := fun s => match p s with Some r => Some r | None => q s end.
Fixpoint manyp (fuel : nat) (p : parser) (s : str) : str :=
  match fuel with O => s | S f => match p s with Some r => manyp f p r | None => s end end.
(** characters and words of the templates *)
Definition c_dot := 46%nat. Definition c_comma := 44%nat. Definition c_colon := 58%nat. Definition c_minus := 45%nat. Definition c_plus := 43%nat.
Definition c_e := 101%nat. Definition c_open := 91%nat. Definition c_close := 93%nat. Definition c_nl := 10%nat.
Definition w_rand : str := [114; 97; 110; 100; 58]%nat.   (* rand: *)
Definition w_ru : str := [114; 117; 58]%nat.              (* ru: *)
Definition w_rx : str := [114; 120; 58]%nat. Definition w_ry : str := [114; 121; 58]%nat. Definition w_rz : str := [114; 122; 58]%nat.
Definition w_identity : str := [105; 100; 101; 110; 116; 105; 116; 121]%nat.
Definition w_ones : str := [111; 110; 101; 115]%nat. Definition w_zero : str := [122; 101; 114; 111]%nat.
(** parse_string.py:10 [Integer]: the regular expression [1-9]\d*|0 *)
Definition p_integer : parser := fun s =>
  match skip is_ws s with
  | c :: t => if Nat.eqb c 48 then Some t else if is_digit c then Some (skip is_digit t) else None
  | [] => None
  end.
(** parse_string.py:11-19 *)
Definition p_float : parser := seqp (seqp p_integer (lit [c_dot])) p_integer.
Definition p_unsigned : parser := altp p_float p_integer.
Definition p_signed : parser := altp (seqp (lit [c_minus]) p_unsigned) p_unsigned.
Definition p_scientific (sign : nat) : parser := seqp (seqp (seqp p_signed (lit [c_e])) (lit [sign])) p_unsigned.
Definition p_number : parser := altp (altp (p_scientific c_plus) (p_scientific c_minus)) p_signed.
Definition p_letters : parser := fun s => match take is_alpha (skip is_ws s) with [] => None | w => prefix w (skip is_ws s) end.
Definition p_list : parser := fun s =>
  match seqp (lit [c_open]) p_number s with
  | Some r => lit [c_close] (manyp (length r) (seqp (lit [c_comma]) p_number) r)
  | None => None
  end.
(** pp.LineEnd: blanks but not line ends are skipped *)
Definition p_line_end : parser := fun s =>
  match skip (fun c => is_ws c && negb (Nat.eqb c c_nl)) s with [] => Some [] | c :: t => if Nat.eqb c c_nl then Some t else None end.
Definition accepts (p : parser) (s : str) : bool := match p s with Some _ => true | None => false end.
(** parse_string.py:21-56; "rand" + ":" is one Python string *)
Definition random_range_check : str -> bool := accepts (seqp (seqp (seqp (seqp (lit w_rand) p_number) (lit [c_colon])) p_number) p_line_end).
Definition ru_check : str -> bool := accepts (seqp (seqp (seqp (seqp (lit w_ru) p_number) (lit [c_colon])) p_list) p_line_end).
Definition array_check : str -> bool := accepts (seqp p_list p_line_end).
Definition str_eqb (a b : str) : bool := if list_eq_dec Nat.eq_dec a b then true else false.
Definition rotation_check (s : str) : bool :=
  accepts (seqp (seqp (seqp p_letters (lit [c_colon])) p_number) p_line_end) s &&
  existsb (str_eqb (take is_alpha (skip is_ws s))) [[114; 120]; [114; 121]; [114; 122]]%nat.
Definition keywords_check (s : str) : bool := str_eqb s w_identity.

(** ** numbers *)
Definition digits_value (ds : str) : Z := fold_left (fun a c => (10 * a + (Z.of_nat c - 48))%Z) ds 0%Z.
(** strtod as np.fromstring uses it: the longest prefix (after white space) that is a number *)
Definition read_float (s : str) : option (R * str) :=
  let s := skip is_ws s in
  let '(neg, s) := match s with c :: t => if Nat.eqb c c_minus then (true, t) else if Nat.eqb c c_plus then (false, t) else (false, s) | [] => (false, s) end in
  let ip := take is_digit s in let s := skip is_digit s in
  let '(fp, s) := match s with c :: t => if Nat.eqb c c_dot then (take is_digit t, skip is_digit t) else ([], s) | [] => ([], s) end in
  match ip ++ fp with
  | [] => None
  | ds =>
    let m := IZR (digits_value ds) / 10 ^ length fp in
    let m := if neg : bool then - m else m in
    match s with
    | c :: t =>
      if Nat.eqb c c_e then
        let '(eneg, u) := match t with d :: u => if Nat.eqb d c_minus then (true, u) else if Nat.eqb d c_plus then (false, u) else (false, t) | [] => (false, t) end in
        match take is_digit u with
        | [] => Some (m, s)
        | es => let k := digits_value es in Some (m * powerRZ 10 (if eneg : bool then - k else k), skip is_digit u)
        end
      else Some (m, s)
    | [] => Some (m, s)
    end
  end.
(** float(s): the whole string, up to white space at both ends *)
Definition py_float (s : str) : option R :=
  match read_float s with Some (x, r) => match skip is_ws r with [] => Some x | _ => None end | None => None end.
(** np.fromstring(s, sep=",") *)
Fixpoint fromstring (fuel : nat) (s : str) : list R :=
  match fuel with
  | O => []
  | S f => match read_float s with
           | None => []
           | Some (x, r) => x :: match skip is_ws r with c :: t => if Nat.eqb c c_comma then fromstring f (skip is_ws t) else [] | [] => [] end
           end
  end.
(** str.lower, str.strip(chars), str.startswith, str.split(":") *)
Definition lower (s : str) : str := map (fun c => if Nat.leb 65 c && Nat.leb c 90 then (c + 32)%nat else c) s.
Definition strip (chars : str) (s : str) : str :=
  let p c := existsb (Nat.eqb c) chars in rev (skip p (rev (skip p s))).
Definition startswith (w s : str) : bool := match prefix w s with Some _ => true | None => false end.
Fixpoint split_colon (s : str) : list str :=
  match s with
  | [] => [[]]
  | c :: t => if Nat.eqb c c_colon then [] :: split_colon t else match split_colon t with w :: ws => (c :: w) :: ws | [] => [[c]] end
  end.
Definition to_array (s : str) : list R := let u := strip [c_open; c_close] s in fromstring (S (length u)) u.

(** vector3.py:20-30 [check_string], 32-60 [from_string]; [None]: an exception.  [rand lo hi] is what np.random.uniform(lo, hi, 3) gives *)
Definition v3_check_string (s : str) : bool := array_check s || random_range_check s.
Definition v3_from_string (rand : R -> R -> vec3) (value : str) : option vec3 :=
  let s := lower value in
  if str_eqb s w_ones then Some (mkV 1 1 1) else
  if str_eqb s w_zero then Some vzero else
  if str_eqb s [105]%nat then Some v3_i else
  if str_eqb s [106]%nat then Some v3_j else
  if str_eqb s [107]%nat then Some v3_k else
  if negb (v3_check_string s) then None else
  if startswith w_rand s then
    match split_colon (strip w_rand s) with
    | [lo; hi] => match py_float lo, py_float hi with Some a, Some b => Some (rand a b) | _, _ => None end
    | _ => None
    end
  else match to_array s with x :: y :: z :: _ => Some (mkV x y z) | _ => None end.

(** quaternion.py:14-28 [check_string], 30-65 [from_string] *)
Definition q_check_string (s : str) : bool := rotation_check s || array_check s || ru_check s || keywords_check s.
Definition turn (f : R -> quat) (w s : str) : option quat :=
  match py_float (strip w s) with Some d => Some (f (degrees_to_radians d)) | None => None end.
Definition q_from_string (rand : R -> R -> vec3) (value : str) : option quat :=
  let s := lower value in
  if negb (q_check_string s) then None else
  if str_eqb s w_identity then Some q_identity else
  if startswith w_rx s then turn q_Rx w_rx s else
  if startswith w_ry s then turn q_Ry w_ry s else
  if startswith w_rz s then turn q_Rz w_rz s else
  if startswith w_ru s then
    match split_colon (strip w_ru s) with
    | [d; a] => match py_float d, v3_from_string rand a with Some x, Some axis => Some (q_Ru (degrees_to_radians x) axis) | _, _ => None end
    | _ => None
    end
  else match to_array s with a :: b :: c :: d :: _ => Some (mkQ a b c d) | _ => None end.
