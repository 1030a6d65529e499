(** Model of rainbow/simulators/proximal_contact/blocking.py *)
From Verif Require Import Base.

(** ** build_contact_graph (blocking.py:6-42) *)
(** a rigid contact point is the pair (bodyA.idx, bodyB.idx); a soft one is the pair of the
    global node numbers [T[idx_tet] + offset] of its two tetrahedra *)
Definition rigid_shares (c1 c2 : nat * nat) : bool :=
  Nat.eqb (fst c1) (fst c2) || Nat.eqb (fst c1) (snd c2) || Nat.eqb (snd c1) (fst c2) || Nat.eqb (snd c1) (snd c2).
Definition soft_nodes (c : list nat * list nat) : list nat := fst c ++ snd c.
(** len(set1.intersection(set2)) > 0 *)
Definition soft_shares (c1 c2 : list nat * list nat) : bool :=
  existsb (fun a => existsb (Nat.eqb a) (soft_nodes c2)) (soft_nodes c1).
(** the edges, in the order they are added: for k in range(K): for i in range(k+1, K) *)
Definition contact_edges {A} (d : A) (shares : A -> A -> bool) (cps : list A) : list (nat * nat) :=
  let K := length cps in
  flat_map (fun k => map (fun i => (k, i))
    (filter (fun i => shares (nth k cps d) (nth i cps d)) (seq (k + 1) (K - (k + 1))))) (seq 0 K).
Definition rigid_edges (cps : list (nat * nat)) := contact_edges (0%nat, 0%nat) rigid_shares cps.
Definition soft_edges (cps : list (list nat * list nat)) := contact_edges ([], []) soft_shares cps.

(** ** greedy_graph_coloring (blocking.py:45-59) *)
(** networkx's greedy_color is outside the code base: the colouring C it returns is a
    parameter.  A dict of lists in insertion order is an association list. *)
Fixpoint group_append {A} (groups : list (Z * list A)) (color : Z) (x : A) : list (Z * list A) :=
  match groups with
  | [] => [(color, [x])]
  | (c, l) :: gs => if Z.eqb c color then (c, l ++ [x]) :: gs else (c, l) :: group_append gs color x
  end.
Definition greedy_groups (K : nat) (C : nat -> Z) : list (Z * list (nat * nat)) :=
  fold_left (fun groups k => let block_start := (4 * k)%nat in let block_end := (block_start + 4)%nat in
    group_append groups (C k) (block_start, block_end)) (seq 0 K) [].
(** the contact numbers block_start // 4 of the colour groups, as used by
    gauss_seidel_solver.py:104-112 *)
Definition group_contacts (groups : list (Z * list (nat * nat))) : list (list nat) :=
  map (fun g => map (fun b => Nat.div (fst b) 4) (snd g)) groups.

(** ** random_graph_coloring (blocking.py:62-111) *)
(** nodes are 0..K-1, as built by build_contact_graph; [adj] is the edge relation *)
Section Random.
Variable K : nat.
Variable adj : nat -> nat -> bool.
(** np.random.choice in iteration [it] for node v from the given palette *)
Variable choose : nat -> nat -> list Z -> Z.
(** the order in which a Python set is iterated *)
Variable order : nat -> list nat -> list nat.
Definition neighbors (v : nat) : list nat := filter (adj v) (seq 0 K).
(** 73-76 palettes: np.arange(degree) *)
Definition palette0 (v : nat) : list Z := map Z.of_nat (seq 0 (length (neighbors v))).
Definition memb (v : nat) (l : list nat) : bool := existsb (Nat.eqb v) l.
(** max(C.values(), default=-1) *)
Definition max_color (C : nat -> option Z) : Z :=
  fold_left (fun m v => match C v with Some c => Z.max m c | None => m end) (seq 0 K) (-1)%Z.
(** 82-84 *)
Definition rc_pick (it : nat) (U : list nat) (C : nat -> option Z) (pal : nat -> list Z) : nat -> option Z :=
  fun v => if memb v U then match pal v with [] => C v | _ => Some (choose it v (pal v)) end else C v.
(** C is a defaultdict(int): reading C[v] (line 89) inserts 0 when the key is missing; lines
    87-93 read it for every v in U.  Reads do not depend on each other, so the insertions are
    done at once. *)
Definition rc_touch (U : list nat) (C : nat -> option Z) : nat -> option Z :=
  fun v => if memb v U then match C v with None => Some 0%Z | _ => C v end else C v.
Definition rc_get (C : nat -> option Z) (v : nat) : Z := match C v with Some c => c | None => 0%Z end.
(** 86-93: I, and the palettes after the discards; the loop only reads C, and the discards
    commute, so they are done at once *)
Definition rc_free (U : list nat) (C : nat -> option Z) (v : nat) : bool :=
  negb (existsb (fun u => memb u U && Z.eqb (rc_get C u) (rc_get C v)) (neighbors v)).
Definition rc_discard (U Is : list nat) (C : nat -> option Z) (pal : nat -> list Z) : nat -> list Z :=
  fun u => if memb u U then filter (fun c => negb (existsb (fun v => adj v u && Z.eqb (rc_get C v) c) Is)) (pal u) else pal u.
(** 96-99: fresh colours for empty palettes *)
Fixpoint rc_fresh (vs : list nat) (m : Z) (pal : nat -> list Z) : nat -> list Z :=
  match vs with
  | [] => pal
  | v :: vs' => match pal v with
                | [] => rc_fresh vs' (m + 1)%Z (fun u => if Nat.eqb u v then [(m + 1)%Z] else pal u)
                | _ => rc_fresh vs' m pal
                end
  end.
(** 81-101 the while loop; [fuel] = max_iter - iter_count *)
Fixpoint rc_loop (fuel it : nat) (U : list nat) (C : nat -> option Z) (pal : nat -> list Z) : list nat * (nat -> option Z) :=
  match fuel with
  | O => (U, C)
  | S fuel' =>
    match U with
    | [] => (U, C)
    | _ =>
      let C := rc_touch U (rc_pick it U C pal) in
      let Is := filter (rc_free U C) U in
      let pal := rc_discard U Is C pal in
      let U := filter (fun v => negb (memb v Is)) U in
      let pal := rc_fresh (order it U) (max_color C) pal in
      rc_loop fuel' (S it) U C pal
    end
  end.
(** 103-107: the rest gets fresh colours *)
Fixpoint rc_rest (vs : list nat) (m : Z) (C : nat -> option Z) : nat -> option Z :=
  match vs with
  | [] => C
  | v :: vs' => rc_rest vs' (m + 1)%Z (fun u => if Nat.eqb u v then Some (m + 1)%Z else C u)
  end.
Definition random_coloring (max_iter : nat) : nat -> option Z :=
  let '(U, C) := rc_loop max_iter 0 (seq 0 K) (fun _ => None) palette0 in
  rc_rest (order max_iter U) (max_color C) C.
(** 109-114: groups of the sorted keys *)
Definition random_graph_coloring (max_iter : nat) : list (Z * list nat) :=
  let C := random_coloring max_iter in
  fold_left (fun groups v => match C v with Some c => group_append groups c v | None => groups end) (seq 0 K) [].
End Random.
