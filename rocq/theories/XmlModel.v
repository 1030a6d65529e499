(** Model of rainbow/simulators/prox_rigid_bodies/scenes/write_xml.py.
    A file is the tree of its elements with the raw text of every attribute, as xml.etree.ElementTree.write puts it between the
    quotes; the white space that ET.indent puts between the tags and the encoding as UTF-8 are not modelled.  How str() and
    np.array2string print a number, a vector, a quaternion, an integer and the corners of a triangle is the parameter [printer].
    The parameters of the ellipsoid prox operator, which are not in the model of an engine, are left out of <params>. *)
From Coq Require Import String Ascii.
From Verif Require Import Base QuatModel VecModel BvhModel GridModel VolModel RigidTypes.
Open Scope R_scope.

(** a string literal *)
Definition lit (s : string) : name := map nat_of_ascii (list_ascii_of_string s).
Local Notation "'`' s" := (lit s%string) (at level 1, s at level 0, format "'`' s").
(** str(x), np.array2string(v), np.array2string(q), str(n) and np.array2string(t) *)
Record printer := mkPrinter { pr_R : R -> name; pr_V : vec3 -> name; pr_Q : quat -> name; pr_N : Z -> name; pr_T : tri -> name }.
Definition pr_nat (p : printer) (n : nat) : name := pr_N p (Z.of_nat n).
Definition pr_bool (b : bool) : name := if b then `"True" else `"False".

(** the value of an attribute: a string, or the key of a dictionary that is a tuple of two strings *)
Inductive value := Str (s : name) | Pair (a b : name).
(** an element: its tag, its attributes in the order of set(), its children *)
Inductive xml (A : Type) := Elem (tag : name) (attrs : list (name * A)) (children : list (xml A)).
Arguments Elem {A}.
Fixpoint map_some {A B} (f : A -> option B) (l : list A) : option (list B) :=
  match l with [] => Some [] | x :: t => do y <- f x; do ys <- map_some f t; Some (y :: ys) end.
(** enumerate(l) *)
Definition enumerate {A} (l : list A) : list (nat * A) := combine (seq 0 (length l)) l.

Section scene.
  Variable p : printer.
  (** write_xml.py:40-42 *)
  Definition apply_xml (f : force) : xml value := Elem `"apply" [(`"name", Str (force_name f))] [].
  (** write_xml.py:26-42; [None] = AttributeError: body.shape is None *)
  Definition body_xml (b : body) : option (xml value) :=
    do s <- b_shape b;
    Some (Elem `"body" [(`"name", Str (b_name b)); (`"idx", Str (pr_nat p (b_idx b))); (`"shape", Str (sh_name s));
      (`"pos", Str (pr_V p (b_r b))); (`"rot", Str (pr_Q p (b_q b))); (`"vel", Str (pr_V p (b_v b))); (`"spin", Str (pr_V p (b_w b)));
      (`"mass", Str (pr_R p (b_mass b))); (`"inertia", Str (pr_V p (b_inertia b))); (`"is_fixed", Str (pr_bool (b_fixed b)));
      (`"material", Str (b_material b))] (map apply_xml (b_forces b))).
  (** write_xml.py:45-57 *)
  Definition force_xml (f : force) : xml value :=
    match f with
    | Gravity n g up => Elem `"gravity" [(`"name", Str n); (`"g", Str (pr_R p g)); (`"up", Str (pr_V p up))] []
    | Damping n alpha beta => Elem `"damping" [(`"name", Str n); (`"alpha", Str (pr_R p alpha)); (`"beta", Str (pr_R p beta))] []
    end.
  (** write_xml.py:65-68 *)
  Definition vertex_xml (iv : nat * vec3) : xml value := Elem `"v" [(`"idx", Str (pr_nat p (fst iv))); (`"p", Str (pr_V p (snd iv)))] [].
  (** write_xml.py:71-74 *)
  Definition triangle_xml (it : nat * tri) : xml value := Elem `"t" [(`"idx", Str (pr_nat p (fst it))); (`"labels", Str (pr_T p (snd it)))] [].
  (** write_xml.py:60-74 *)
  Definition shape_xml (s : shape) : xml value :=
    Elem `"shape" [(`"name", Str (sh_name s))]
      [Elem `"vertices" [(`"count", Str (pr_nat p (length (sh_V s))))] (map vertex_xml (enumerate (sh_V s)));
       Elem `"triangles" [(`"count", Str (pr_nat p (length (sh_T s))))] (map triangle_xml (enumerate (sh_T s)))].
  (** write_xml.py:77-81: key is the tuple of the two materials *)
  Definition interaction_xml (ki : (name * name) * interaction) : xml value :=
    Elem `"interaction" [(`"materials", Pair (fst (fst ki)) (snd (fst ki))); (`"friction", Str (pr_V p (i_mu (snd ki)))); (`"restitution", Str (pr_R p (i_eps (snd ki))))] [].
  (** write_xml.py:84-97; [None] = AttributeError: hinge.parent is None *)
  Definition hinge_xml (e : engine) (ih : nat * hinge) : option (xml value) :=
    do sk <- h_sockets (snd ih);
    do P <- find_body e (sk_body (fst sk)); do C <- find_body e (sk_body (snd sk));
    let o_world := vadd (q_rotate (b_q P) (sk_arm (fst sk))) (b_r P) in
    let s_world := q_rotate (b_q P) (sk_axis (fst sk)) in
    Some (Elem `"hinge" [(`"name", Str (h_name (snd ih))); (`"idx", Str (pr_nat p (fst ih)));
      (`"parent", Str (b_name P)); (`"parent-idx", Str (pr_nat p (b_idx P))); (`"child", Str (b_name C)); (`"child-idx", Str (pr_nat p (b_idx C)));
      (`"origin", Str (pr_V p o_world)); (`"axis", Str (pr_V p s_world)); (`"mode", Str `"world")] []).
  Definition param_xml (n ty v : name) : xml value := Elem `"param" [(`"name", Str n); (`"value", Str v); (`"type", Str ty)] [].
  (** write_xml.py:99-107: dir() is in alphabetical order; the type is the declared one (a float parameter to which an
      integer has been assigned, like contact_optimization_tolerance at first, is written with the type int) *)
  Definition params_xml (P : params) : list (xml value) :=
    let f n x := param_xml n `"float" (pr_R p x) in let i n x := param_xml n `"int" (pr_N p x) in let b n x := param_xml n `"bool" (pr_bool x) in
    [i `"K" (Z.of_nat (p_K P)); f `"absolute_tolerance" (p_abs_tol P); i `"bvh_chunk_size" (p_chunk P);
     i `"contact_optimization_max_iterations" (Z.of_nat (p_opt_iterations P)); f `"contact_optimization_tolerance" (p_opt_tol P);
     f `"envelope" (p_envelope P); f `"gap_reduction" (p_gap_reduction P); f `"max_gap_value" (p_max_gap P);
     i `"max_iterations" (Z.of_nat (p_max_iterations P)); f `"min_gap_value" (p_min_gap P); f `"nu_increase" (p_nu_increase P); f `"nu_reduce" (p_nu_reduce P);
     f `"relative_tolerance" (p_rel_tol P); i `"resolution" (p_resolution P); f `"time_step" (p_time_step P); f `"too_small_merit_change" (p_small_merit P);
     b `"use_bounce" (p_use_bounce P); b `"use_post_stabilization" (p_use_post P); b `"use_pre_stabilization" (p_use_pre P)].
  (** write_xml.py:21-107 *)
  Definition scene_xml (e : engine) : option (xml value) :=
    do bs <- map_some body_xml (e_bodies e);
    do hs <- map_some (hinge_xml e) (enumerate (e_hinges e));
    Some (Elem `"scene" []
      [Elem `"bodies" [] bs; Elem `"forces" [] (map force_xml (e_forces e)); Elem `"shapes" [] (map shape_xml (e_shapes e));
       Elem `"materials" [] (map interaction_xml (e_lib e)); Elem `"hinges" [] hs; Elem `"params" [] (params_xml (e_params e))]).
End scene.

(** text.replace(c, r) *)
Definition replace (c : nat) (r s : name) : name := flat_map (fun x => if Nat.eqb x c then r else [x]) s.
(** xml.etree.ElementTree._escape_attrib of a string *)
Definition escape (s : name) : name :=
  replace 9 `"&#09;" (replace 10 `"&#10;" (replace 13 `"&#13;" (replace 34 `"&quot;" (replace 62 `"&gt;" (replace 60 `"&lt;" (replace 38 `"&amp;" s)))))).
(** the characters that _escape_attrib looks for: & < > quotation mark, carriage return, newline, tabulator *)
Definition specials : list nat := [38; 60; 62; 34; 13; 10; 9]%nat.
(** repr() of a string of printable characters, newlines, carriage returns and tabulators (other characters that are not
    printable are not modelled): in apostrophes, or in quotation marks when it has an apostrophe and no quotation mark *)
Definition repr_char (q x : nat) : name :=
  if Nat.eqb x q || Nat.eqb x 92 then [92; x]%nat else if Nat.eqb x 10 then `"\n" else if Nat.eqb x 13 then `"\r" else if Nat.eqb x 9 then `"\t" else [x].
Definition repr_quote (s : name) : nat := if existsb (Nat.eqb 39) s && negb (existsb (Nat.eqb 34) s) then 34%nat else 39%nat.
Definition repr (s : name) : name := [repr_quote s] ++ flat_map (repr_char (repr_quote s)) s ++ [repr_quote s].
(** the text that ET.write puts between the quotes.  For a tuple, [x in text] compares x with the two strings and
    text.replace does not exist: TypeError; otherwise the tuple is printed by the format %s *)
Definition attr_text (v : value) : option name :=
  match v with
  | Str s => Some (escape s)
  | Pair a b => if existsb (fun c => name_eqb [c] a || name_eqb [c] b) specials then None else Some (`"(" ++ repr a ++ `", " ++ repr b ++ `")")
  end.
Definition attr_pair (kv : name * value) : option (name * name) := do t <- attr_text (snd kv); Some (fst kv, t).
Fixpoint file_of (x : xml value) : option (xml name) :=
  match x with Elem tag attrs children =>
    do a <- map_some attr_pair attrs;
    do c <- (fix all (l : list (xml value)) : option (list (xml name)) := match l with [] => Some [] | y :: t => do z <- file_of y; do zs <- all t; Some (z :: zs) end) children;
    Some (Elem tag a c)
  end.
(** write_xml.py:12-121 [write_xml]: the file that is written; [None] = exception *)
Definition write_xml (p : printer) (e : engine) : option (xml name) := do x <- scene_xml p e; file_of x.
