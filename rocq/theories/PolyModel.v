(** Model of rainbow/math/polynomial.py (two-dimensional polynomials; the constructor
    rejects dimensions 1 and 3).  Exponents are nat, coefficients R. *)
From Verif Require Import Base.
From Coq Require Import String Ascii.
From Coq Require Import List.
Open Scope R_scope.

(** math.comb(n, k) *)
Fixpoint comb (n k : nat) : nat :=
  match n, k with
  | _, O => 1
  | O, S _ => 0
  | S n', S k' => comb n' k' + comb n' (S k')
  end%nat.

(** polynomial.py:17-31 [number_of_monomial_terms] ([None] = ValueError) *)
Definition number_of_monomial_terms (dimension order : Z) : option nat :=
  if (order <? 0)%Z then None
  else if (dimension <? 1)%Z then None
  else if (3 <? dimension)%Z then None
  else Some (comb (Z.to_nat (order + dimension)) (Z.to_nat dimension)).

(** polynomial.py:34-50 [poly2_make_monomial_powers]: for p in range(order+1): for j in
    range(p+1): append [p-j, j] *)
Definition powers_nat (order : nat) : list (nat * nat) :=
  flat_map (fun p => map (fun j => (p - j, j)%nat) (seq 0 (p + 1))) (seq 0 (order + 1)).
Definition poly2_make_monomial_powers (order : Z) : option (list (nat * nat)) :=
  if (order <? 0)%Z then None else Some (powers_nat (Z.to_nat order)).

(** polynomial.py:88-138 [Poly]: [powers] and [coefficients] are parallel arrays *)
Record poly := mkP { p_order : Z; p_powers : list (nat * nat); p_coef : list R }.
(** polynomial.py:93-138 [Poly.__init__] with dimension 2: coefficients are ones *)
Definition poly_make (order : Z) : option poly :=
  match poly2_make_monomial_powers order with
  | None => None
  | Some ps => Some (mkP order ps (map (fun _ => 1) ps))
  end.

(** polynomial.py:229-269 [evaluate], dimension 2: np.sum(np.multiply(coef, np.multiply(x**p0, y**p1))) *)
Fixpoint np_sum (l : list R) : R := match l with [] => 0 | a :: t => a + np_sum t end.
Fixpoint np_multiply (a b : list R) : list R :=
  match a, b with x :: a', y :: b' => x * y :: np_multiply a' b' | _, _ => [] end.
Definition evaluate (P : poly) (x y : R) : R :=
  np_sum (np_multiply (p_coef P)
    (np_multiply (map (fun pw => x ^ fst pw) (p_powers P)) (map (fun pw => y ^ snd pw) (p_powers P)))).

(** polynomial.py:53-85 [make_vandermonde_matrix], dimension 2 (rows k < K) *)
Definition make_vandermonde_matrix (order : Z) (x : list (R * R)) : option (list (list R)) :=
  if (order <=? 0)%Z then None else
  match number_of_monomial_terms 2 order, poly2_make_monomial_powers order with
  | Some K, Some powers =>
    if Nat.ltb (length x) K then None
    else Some (map (fun pt => map (fun pw => fst pt ^ fst pw * snd pt ^ snd pw) powers) (firstn K x))
  | _, _ => None
  end.

(** polynomial.py:158-226 [interpolate], one polynomial per column of v.  [v] is given by
    its columns.  [linalg.solve] is the parameter [solve] (one column at a time). *)
Definition interpolate (solve : list (list R) -> list R -> option (list R))
    (order : Z) (x : list (R * R)) (v : list (list R)) : option (list poly) :=
  if (order <=? 0)%Z then None else
  match number_of_monomial_terms 2 order with
  | None => None
  | Some K =>
    if Nat.ltb (length x) K then None else
    if existsb (fun col => Nat.ltb (length col) K) v then None else
    match make_vandermonde_matrix order (firstn K x), poly_make order with
    | Some V, Some P0 =>
      fold_right (fun col acc =>
        match solve V (firstn K col), acc with
        | Some a, Some ps => Some (mkP (p_order P0) (p_powers P0) a :: ps)
        | _, _ => None
        end) (Some []) v
    | _, _ => None
    end
  end.

(** polynomial.py:322-340 [derivative]; direction d = 0 (x) or 1 (y) *)
Definition pw_get (d : nat) (pw : nat * nat) : nat := match d with O => fst pw | _ => snd pw end.
Definition pw_dec (d : nat) (pw : nat * nat) : nat * nat :=
  let k := if Nat.eqb (pw_get d pw) 0 then 0%nat else (pw_get d pw - 1)%nat in
  match d with O => (k, snd pw) | _ => (fst pw, k) end.
Definition derivative_dir (P : poly) (d : nat) : poly :=
  mkP (p_order P) (map (pw_dec d) (p_powers P))
      (np_multiply (map (fun pw => INR (pw_get d pw)) (p_powers P)) (p_coef P)).
Definition derivative (P : poly) : list poly := [derivative_dir P 0; derivative_dir P 1].

(** polynomial.py:272-319 [to_str].  The decimal rendering of the absolute value of a
    coefficient and of an exponent are parameters ([str(int(c))]/[str(c)], [str(k)]). *)
Section ToStr.
  Variable num_str : R -> string.
  Variable nat_str : nat -> string.
  Open Scope string_scope.
  (** lines 288-299: powers of one monomial *)
  Definition powers_str (pw : nat * nat) : string :=
    let one (acc : string) (d : nat) (name : string) (k : nat) : string :=
      if Nat.eqb k 0 then acc
      else let acc := if Nat.ltb 0 d && Nat.ltb 0 (String.length acc) then acc ++ " " else acc in
           if Nat.eqb k 1 then acc ++ name else acc ++ name ++ "^" ++ nat_str k in
    one (one "" 0%nat "x" (fst pw)) 1%nat "y" (snd pw).
  (** lines 284-309: one term (empty for a zero coefficient) *)
  Definition term_str (coef : R) (pw : nat * nat) : string :=
    let c := Rabs coef in
    if Rltb 0 c then
      let powers := powers_str pw in
      if Nat.eqb (String.length powers) 0 then num_str c
      else if Reqb c 1 then powers else num_str c ++ " " ++ powers
    else "".
  (** lines 281-319: the loop; the sign is only written when something precedes the term *)
  Definition str_step (polynomial : string) (t : R * (nat * nat)) : string :=
    let sign := if Rltb (fst t) 0 then "-" else "+" in
    let term := term_str (fst t) (snd t) in
    if Nat.ltb 0 (String.length polynomial) then
      (if Nat.ltb 0 (String.length term) then polynomial ++ " " ++ sign ++ " " ++ term else polynomial)
    else term.
  Definition poly_to_str (P : poly) : string :=
    fold_left str_step (combine (p_coef P) (p_powers P)) "".
End ToStr.
