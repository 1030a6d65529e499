(** Model of rainbow/util/heap.py and rainbow/util/timer.py *)
From Verif Require Import Base.
From Coq Require Import Permutation.
Open Scope R_scope.

(** ** heap.py.  Python values have an identity: [obj] is a pushed value object, [oid] its
    identity and [oval] the number it holds.  Two different objects may hold equal numbers;
    [is] compares identities ([obj_is]).  Indices are integers. *)
Record obj := mkO { oid : nat; oval : R }.
Definition obj_is (a b : obj) : Prop := a = b.  (* same object: same identity and hence same number *)
Definition item := (obj * Z)%type.              (* heap.py:19 (value, idx) *)
(** Python tuple order on (value, idx): [item_le] *)
Definition item_le (a b : item) : Prop :=
  oval (fst a) < oval (fst b) \/ (oval (fst a) = oval (fst b) /\ (snd a <= snd b)%Z).

(** dict: association list with one entry per key (insertion order irrelevant here) *)
Fixpoint dict_get (d : list (Z * item)) (k : Z) : option item :=
  match d with [] => None | (k', v) :: t => if Z.eqb k k' then Some v else dict_get t k end.
Fixpoint dict_del (d : list (Z * item)) (k : Z) : list (Z * item) :=
  match d with [] => [] | (k', v) :: t => if Z.eqb k k' then dict_del t k else (k', v) :: dict_del t k end.
Definition dict_set (d : list (Z * item)) (k : Z) (v : item) : list (Z * item) := (k, v) :: dict_del d k.

(** heap.py:5-8 [Heap.__init__]; the list maintained by heapq is modelled as a bag: heappush
    adds an element, heappop removes some least element (any, if several compare equal). *)
Record heap := mkHeap { hp_heap : list item; hp_finder : list (Z * item) }.
Definition heap_init : heap := mkHeap [] [].
(** heapq.heappop on the bag *)
Definition heappop (h : list item) (a : item) (h' : list item) : Prop :=
  Permutation h (a :: h') /\ forall b, In b h -> item_le a b.
(** heap.py:13-14 [__bool__] *)
Definition heap_bool (h : heap) : bool := Nat.ltb 0 (length (hp_finder h)).
(** heap.py:16-21 [push], 38-39 [update] *)
Definition heap_push (h : heap) (idx : Z) (value : obj) : heap :=
  let it := (value, idx) in mkHeap (it :: hp_heap h) (dict_set (hp_finder h) idx it).
Definition heap_update (h : heap) (idx : Z) (new_value : obj) : heap := heap_push h idx new_value.
(** heap.py:23-36 [pop]: the while loop, as a relation because of [heappop] *)
Inductive heap_pop : heap -> option Z -> heap -> Prop :=
| pop_empty : forall f, heap_pop (mkHeap [] f) None (mkHeap [] f)                       (* line 36 *)
| pop_missing : forall h f a h' r s, heappop h a h' -> dict_get f (snd a) = None ->     (* lines 26-27 *)
    heap_pop (mkHeap h' f) r s -> heap_pop (mkHeap h f) r s
| pop_stale : forall h f a h' last r s, heappop h a h' -> dict_get f (snd a) = Some last ->
    ~ obj_is (fst a) (fst last) ->                                                       (* lines 28-30 *)
    heap_pop (mkHeap h' f) r s -> heap_pop (mkHeap h f) r s
| pop_take : forall h f a h' last, heappop h a h' -> dict_get f (snd a) = Some last ->
    obj_is (fst a) (fst last) ->                                                         (* lines 32-35 *)
    heap_pop (mkHeap h f) (Some (snd a)) (mkHeap h' (dict_del f (snd a))).

(** observable histories *)
Inductive hevent := EPush (idx : Z) (value : obj) | EUpdate (idx : Z) (value : obj) | EPop (result : option Z).
Inductive hexec : list hevent -> heap -> Prop :=
| hx_init : hexec [] heap_init
| hx_push : forall es h i v, hexec es h -> hexec (es ++ [EPush i v]) (heap_push h i v)
| hx_update : forall es h i v, hexec es h -> hexec (es ++ [EUpdate i v]) (heap_update h i v)
| hx_pop : forall es h r h', hexec es h -> heap_pop h r h' -> hexec (es ++ [EPop r]) h'.

(** ** timer.py.  perf_counter readings are arguments. *)
(** timer.py:5-11 *)
Record timer := mkT { t_value : R; t_acc : R; t_tic : option R; t_toc : option R }.
Definition timer_init : timer := mkT 0 0 None None.
(** timer.py:13-15 [start] *)
Definition timer_start (t : timer) (now : R) : timer := mkT (t_value t) (t_acc t) (Some now) None.
(** timer.py:17-23 [end]; [None] = RuntimeError (raised before anything is written) *)
Definition timer_end (t : timer) (now : R) : option timer :=
  match t_tic t with
  | None => None
  | Some tic => let value := now - tic in Some (mkT value (t_acc t + value) None (Some now))
  end.
(** timer.py:25-31 *)
Definition timer_elapsed (t : timer) : R := t_value t.
Definition timer_total (t : timer) : R := t_acc t.
Inductive tevent := TStart (now : R) | TEnd (now : R).
(** one call; a raised exception leaves the object as it was *)
Definition timer_call (t : timer) (e : tevent) : timer * bool :=
  match e with
  | TStart now => (timer_start t now, true)
  | TEnd now => match timer_end t now with Some t' => (t', true) | None => (t, false) end
  end.
Definition timer_run (es : list tevent) : timer := fold_left (fun t e => fst (timer_call t e)) es timer_init.
