(** Specification of the heap and the timer, independent of their implementation *)
From Verif Require Import Base UtilModel.
Open Scope R_scope.

(** the priority map: after a history, index [i] is mapped to the number most recently
    pushed for it, unless it was popped since *)
Definition pmap := Z -> option R.
Definition pm_step (m : pmap) (e : hevent) : pmap :=
  match e with
  | EPush i v | EUpdate i v => fun j => if Z.eqb j i then Some (oval v) else m j
  | EPop (Some i) => fun j => if Z.eqb j i then None else m j
  | EPop None => m
  end.
Definition pm_replay (es : list hevent) : pmap := fold_left pm_step es (fun _ => None).
(** [i] has the smallest value in [m], ties broken by the smallest index *)
Definition pm_first (m : pmap) (i : Z) : Prop :=
  exists v, m i = Some v /\ forall j w, m j = Some w -> v < w \/ (v = w /\ (i <= j)%Z).

(** completed timing intervals of a history, most recent first: each [TEnd] closes the latest
    preceding [TStart] unless another [TEnd] already did *)
Fixpoint intervals (pending : option R) (done : list R) (es : list tevent) : list R :=
  match es with
  | [] => done
  | TStart a :: es' => intervals (Some a) done es'
  | TEnd b :: es' => match pending with Some a => intervals None ((b - a) :: done) es' | None => intervals None done es' end
  end.
Fixpoint rsum (l : list R) : R := match l with [] => 0 | a :: t => a + rsum t end.
(** a start is pending after the history *)
Fixpoint pending (p : bool) (es : list tevent) : bool :=
  match es with [] => p | TStart _ :: es' => pending true es' | TEnd _ :: es' => pending false es' end.
