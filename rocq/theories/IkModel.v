(** Model of rainbow/simulators/inverse_kinematics/types.py and api.py.

    A skeleton is the list of its bones (Skeleton.bones).  Bone objects are mutable in
    Python: functions that change a skeleton return the changed list here.  A bone object is
    identified by its position in the list (no bone object occurs twice).  [None] = the call
    raises (or does not return, see [update_bone] and [climb]).  Strings are lists of Unicode
    code points.  The [__str__] methods are not modelled. *)
From Verif Require Import Base VecModel QuatModel BvhModel.
Open Scope R_scope.

Definition cX : nat := 88%nat.
Definition cY : nat := 89%nat.
Definition cZ : nat := 90%nat.
Definition code_eqb (a b : list nat) : bool := if list_eq_dec Nat.eq_dec a b then true else false.

(** types.py:5-17 [Bone] *)
Record bone := mkBone {
  bn_idx : nat; bn_code : list nat; bn_alpha : R; bn_beta : R; bn_gamma : R;
  bn_q : quat; bn_tw : vec3; bn_t : vec3; bn_parent : Z; bn_children : list nat }.
Definition bone_init : bone := mkBone 0 [cZ; cY; cZ] 0 0 0 q_identity vzero vzero (-1) [].
(** attribute assignments *)
Definition set_alpha (b : bone) (x : R) := mkBone (bn_idx b) (bn_code b) x (bn_beta b) (bn_gamma b) (bn_q b) (bn_tw b) (bn_t b) (bn_parent b) (bn_children b).
Definition set_beta (b : bone) (x : R) := mkBone (bn_idx b) (bn_code b) (bn_alpha b) x (bn_gamma b) (bn_q b) (bn_tw b) (bn_t b) (bn_parent b) (bn_children b).
Definition set_gamma (b : bone) (x : R) := mkBone (bn_idx b) (bn_code b) (bn_alpha b) (bn_beta b) x (bn_q b) (bn_tw b) (bn_t b) (bn_parent b) (bn_children b).
Definition set_pose (b : bone) (tw : vec3) (q : quat) := mkBone (bn_idx b) (bn_code b) (bn_alpha b) (bn_beta b) (bn_gamma b) q tw (bn_t b) (bn_parent b) (bn_children b).
Definition add_child (b : bone) (c : nat) := mkBone (bn_idx b) (bn_code b) (bn_alpha b) (bn_beta b) (bn_gamma b) (bn_q b) (bn_tw b) (bn_t b) (bn_parent b) (bn_children b ++ [c]).

(** types.py:36-47 [is_root], [is_end_effector], [has_parent] *)
Definition is_root (b : bone) : bool := Z.eqb (bn_parent b) (-1).
Definition is_end_effector (b : bone) : bool := Nat.eqb (length (bn_children b)) 0.
Definition has_parent (b : bone) : bool := negb (is_root b).
(** types.py:49-55 [get_axis]; a letter other than X, Y, Z gives Python's None, on which every
    caller raises *)
Definition get_axis (b : bone) (i : nat) : option vec3 :=
  match nth_error (bn_code b) i with
  | None => None
  | Some c => if Nat.eqb c cX then Some (mkV 1 0 0) else if Nat.eqb c cY then Some (mkV 0 1 0)
              else if Nat.eqb c cZ then Some (mkV 0 0 1) else None
  end.
(** types.py:57-63 [get_rotation] *)
Definition get_rotation (b : bone) (i : nat) (radians : R) : option quat :=
  match nth_error (bn_code b) i with
  | None => None
  | Some c => if Nat.eqb c cX then Some (q_Rx radians) else if Nat.eqb c cY then Some (q_Ry radians)
              else if Nat.eqb c cZ then Some (q_Rz radians) else None
  end.
(** types.py:65-81 *)
Definition get_axis_alpha (b : bone) := get_axis b 0.
Definition get_axis_beta (b : bone) := get_axis b 1.
Definition get_axis_gamma (b : bone) := get_axis b 2.
Definition get_rotation_alpha (b : bone) := get_rotation b 0 (bn_alpha b).
Definition get_rotation_beta (b : bone) := get_rotation b 1 (bn_beta b).
Definition get_rotation_gamma (b : bone) := get_rotation b 2 (bn_gamma b).

(** types.py:84-107 [Skeleton] *)
Definition skeleton := list bone.
Definition has_root (s : skeleton) : bool := Nat.ltb 0 (length s).
Definition has_bone (s : skeleton) (idx : Z) : bool := (Z.ltb idx (Z.of_nat (length s)) && Z.leb 0 idx)%bool.

(** types.py:110-116 [Chain]; the reference to the skeleton is never read *)
Record chain := mkChain { ch_bones : list nat; ch_goal : vec3; ch_tool : vec3 }.

(** api.py:8-21 [__is_valid_euler_code] *)
Definition proper_euler_angles : list (list nat) :=
  [[cX; cZ; cX]; [cX; cY; cX]; [cY; cX; cY]; [cY; cZ; cY]; [cZ; cY; cZ]; [cZ; cX; cZ]].
Definition tait_bryan_angles : list (list nat) :=
  [[cX; cZ; cY]; [cX; cY; cZ]; [cY; cX; cZ]; [cY; cZ; cX]; [cZ; cY; cX]; [cZ; cX; cY]].
Definition is_valid_euler_code (code : list nat) : bool :=
  existsb (code_eqb code) proper_euler_angles || existsb (code_eqb code) tait_bryan_angles.

(** api.py:24-31 [create_skeleton] *)
Definition create_skeleton : skeleton := [].
(** api.py:34-61 [create_root] *)
Definition create_root (s : skeleton) (alpha beta gamma tx ty tz : R) (code : list nat) : option skeleton :=
  if has_root s then None else if negb (is_valid_euler_code code) then None
  else Some (s ++ [mkBone (bn_idx bone_init) code alpha beta gamma (bn_q bone_init) (bn_tw bone_init) (mkV tx ty tz) (bn_parent bone_init) (bn_children bone_init)]).
(** api.py:64-97 [add_bone] *)
Definition add_bone (s : skeleton) (parent_idx : Z) (alpha beta gamma tx ty tz : R) (code : list nat) : option skeleton :=
  if negb (has_bone s parent_idx) then None else if negb (is_valid_euler_code code) then None
  else
    let e := mkBone (length s) code alpha beta gamma (bn_q bone_init) (bn_tw bone_init) (mkV tx ty tz) parent_idx (bn_children bone_init) in
    match py_get s parent_idx with
    | None => None
    | Some p => match py_set s parent_idx (add_child p (bn_idx e)) with
                | None => None
                | Some s1 => Some (s1 ++ [e])
                end
    end.

(** api.py:115-118 : the rotation of the joint *)
Definition joint_rotation (b : bone) : option quat :=
  match get_rotation_alpha b, get_rotation_beta b, get_rotation_gamma b with
  | Some qa, Some qb, Some qc => Some (q_prod qa (q_prod qb qc))
  | _, _, _ => None
  end.
(** left to right loop over a list in which the body may raise *)
Fixpoint loop {A S} (f : S -> A -> option S) (l : list A) (s : S) : option S :=
  match l with [] => Some s | a :: l' => match f s a with Some s' => loop f l' s' | None => None end end.
(** api.py:120-124 : pose of the parent *)
Definition parent_pose (s : skeleton) (b : bone) : option (vec3 * quat) :=
  if has_parent b then match py_get s (bn_parent b) with Some p => Some (bn_tw p, bn_q p) | None => None end
  else Some (vzero, q_identity).
(** api.py:100-129 [__update_bone] on the bone at position [k]; [fuel] bounds the recursion
    depth ([None] when it is exhausted: Python would exceed its recursion limit) *)
Fixpoint update_bone (fuel : nat) (s : skeleton) (k : nat) : option skeleton :=
  match fuel with
  | O => None
  | S f =>
    match nth_error s k with
    | None => None
    | Some b =>
      match joint_rotation b, parent_pose s b with
      | Some q_bone, Some (t_parent, q_parent) =>
          let b1 := set_pose b (vadd t_parent (q_rotate q_parent (bn_t b))) (q_prod q_parent q_bone) in
          loop (update_bone f) (bn_children b) (list_upd s k b1)
      | _, _ => None
      end
    end
  end.
(** api.py:132-143 [update_skeleton]; a path of a tree is at most as long as the list of bones *)
Definition update_skeleton (s : skeleton) : option skeleton := update_bone (length s) s 0.

(** api.py:146-164 [__make_chain]: the while loop; [fuel] bounds its iterations *)
Fixpoint climb (fuel : nat) (s : skeleton) (b : bone) (acc : list nat) : option (list nat) :=
  match fuel with
  | O => None
  | S f => if is_root b then Some (acc ++ [bn_idx b])
           else match py_get s (bn_parent b) with Some p => climb f s p (acc ++ [bn_idx b]) | None => None end
  end.
Definition make_chain (s : skeleton) (b : bone) : option chain :=
  match climb (length s) s b [] with Some l => Some (mkChain (rev l) (mkV 10 0 0) vzero) | None => None end.
(** api.py:167-191 [make_chains] *)
Definition make_chains (s : skeleton) : option (list chain) := map_opt (make_chain s) (filter is_end_effector s).

(** assignment to element [i] of a numpy array; [None] = IndexError (indices here are >= 0) *)
Definition arr_set (a : list R) (i : nat) (x : R) : option (list R) := if Nat.ltb i (length a) then Some (list_upd a i x) else None.
(** api.py:194-208 [get_joint_angles] *)
Definition get_joint_angles (s : skeleton) : option (list R) :=
  loop (fun a b =>
    match arr_set a (bn_idx b * 3 + 0) (bn_alpha b) with
    | Some a1 => match arr_set a1 (bn_idx b * 3 + 1) (bn_beta b) with
                 | Some a2 => arr_set a2 (bn_idx b * 3 + 2) (bn_gamma b)
                 | None => None
                 end
    | None => None
    end) s (repeat 0 (length s * 3)).
(** api.py:211-224 [set_joint_angles]: the skeleton afterwards and whether the call returned
    (false = IndexError; the bones before the failing read keep their new angles) *)
Definition set_bone_angles (angles : list R) (b : bone) : bone * bool :=
  match nth_error angles (bn_idx b * 3 + 0) with
  | None => (b, false)
  | Some x => let b1 := set_alpha b x in
    match nth_error angles (bn_idx b * 3 + 1) with
    | None => (b1, false)
    | Some y => let b2 := set_beta b1 y in
      match nth_error angles (bn_idx b * 3 + 2) with
      | None => (b2, false)
      | Some z => (set_gamma b2 z, true)
      end
    end
  end.
Fixpoint set_joint_angles (s : skeleton) (angles : list R) : skeleton * bool :=
  match s with
  | [] => ([], true)
  | b :: s' => let '(b', ok) := set_bone_angles angles b in
               if ok then let '(s'', ok') := set_joint_angles s' angles in (b' :: s'', ok') else (b' :: s', false)
  end.

(** api.py:227-239 [get_end_effector] *)
Definition get_end_effector (c : chain) (s : skeleton) : option vec3 :=
  match rev (ch_bones c) with
  | [] => None
  | k :: _ => match nth_error s k with Some b => Some (vadd (bn_tw b) (q_rotate (bn_q b) (ch_tool c))) | None => None end
  end.

(** two-dimensional numpy arrays: shape and entries *)
Record matrix := mkMat { m_rows : nat; m_cols : nat; m_at : nat -> nat -> R }.
Definition mat_zeros (r c : nat) : matrix := mkMat r c (fun _ _ => 0).
(** J[row:row+3, col] = v *)
Definition set_col3 (J : matrix) (row col : nat) (v : vec3) : matrix :=
  mkMat (m_rows J) (m_cols J) (fun i j =>
    if Nat.eqb j col then
      if Nat.eqb i row then vx v else if Nat.eqb i (row + 1) then vy v else if Nat.eqb i (row + 2) then vz v else m_at J i j
    else m_at J i j).
(** J[row:row+3, col] *)
Definition get_col3 (J : matrix) (row col : nat) : vec3 := mkV (m_at J row col) (m_at J (row + 1) col) (m_at J (row + 2) col).
Fixpoint sum_n (n : nat) (f : nat -> R) : R := match n with O => 0 | S m => sum_n m f + f m end.
(** np.dot(np.transpose(J), J) *)
Definition mat_gram (J : matrix) : matrix := mkMat (m_cols J) (m_cols J) (fun i j => sum_n (m_rows J) (fun k => m_at J k i * m_at J k j)).

(** api.py:262-265 / 310-312 : orientation of the parent *)
Definition parent_q (s : skeleton) (b : bone) : option quat :=
  if has_parent b then match py_get s (bn_parent b) with Some p => Some (bn_q p) | None => None end else Some q_identity.
(** api.py:267-273 / 315-323 : the three joint axes in world space *)
Definition joint_axes (s : skeleton) (b : bone) : option (vec3 * vec3 * vec3) :=
  match parent_q s b, get_rotation_alpha b, get_rotation_beta b, get_axis_alpha b, get_axis_beta b, get_axis_gamma b with
  | Some qp, Some qa, Some qb, Some aa, Some ab, Some ac =>
      Some (q_rotate qp aa, q_rotate qp (q_rotate qa ab), q_rotate qp (q_rotate (q_prod qa qb) ac))
  | _, _, _, _, _, _ => None
  end.
(** api.py:260-279 : the three columns of one bone *)
Definition jacobian_bone (s : skeleton) (e : vec3) (row : nat) (J : matrix) (idx : nat) : option matrix :=
  match nth_error s idx with
  | None => None
  | Some b =>
    match joint_axes s b with
    | None => None
    | Some (u, v, w) =>
        let delta := vsub e (bn_tw b) in
        Some (set_col3 (set_col3 (set_col3 J row (idx * 3 + 0) (vcross u delta)) row (idx * 3 + 1) (vcross v delta)) row (idx * 3 + 2) (vcross w delta))
    end
  end.
(** api.py:242-281 [compute_jacobian]; the loop carries (J, row_offset) *)
Definition jacobian_chain (s : skeleton) (st : matrix * nat) (c : chain) : option (matrix * nat) :=
  match get_end_effector c s with
  | None => None
  | Some e => match loop (jacobian_bone s e (snd st)) (ch_bones c) (fst st) with
              | Some J => Some (J, (snd st + 3)%nat)
              | None => None
              end
  end.
Definition compute_jacobian (cs : list chain) (s : skeleton) : option matrix :=
  match loop (jacobian_chain s) cs (mat_zeros (length cs * 3) (length s * 3), 0%nat) with Some (J, _) => Some J | None => None end.

(** H[r:r+3, c:c+3] -= B *)
Definition sub_block (H : matrix) (r c : nat) (B : nat -> nat -> R) : matrix :=
  mkMat (m_rows H) (m_cols H) (fun i j =>
    if (Nat.leb r i && Nat.ltb i (r + 3) && Nat.leb c j && Nat.ltb j (c + 3))%bool then m_at H i j - B (i - r)%nat (j - c)%nat else m_at H i j).
(** api.py:327-345 : the entries of dH, row by row *)
Definition hess_block (u v w Ja Jb Jc r : vec3) : nat -> nat -> R := fun i j =>
  let Ji := match i with O => Ja | S O => Jb | _ => Jc end in
  let ax := match j with O => u | S O => v | _ => w end in
  vdot (vcross ax Ji) r.
(** api.py:305-349 : one pair of bones (k, h) *)
Definition hessian_pair (s : skeleton) (J : matrix) (row : nat) (r : vec3) (k : nat) (H : matrix) (h : nat) : option matrix :=
  if Nat.ltb k h then Some H
  else match nth_error s h with
  | None => None
  | Some bh =>
    (* q_gamma is computed too (and not used) *)
    match joint_axes s bh, get_rotation_gamma bh with
    | Some (u, v, w), Some _ =>
        let dH := hess_block u v w (get_col3 J row (k * 3)) (get_col3 J row (k * 3 + 1)) (get_col3 J row (k * 3 + 2)) r in
        let H1 := sub_block H (h * 3) (k * 3) dH in
        Some (if Nat.eqb h k then H1 else sub_block H1 (k * 3) (h * 3) (fun i j => dH j i))
    | _, _ => None
    end
  end.
Definition hessian_chain (s : skeleton) (J : matrix) (st : matrix * nat) (c : chain) : option (matrix * nat) :=
  match get_end_effector c s with
  | None => None
  | Some e =>
    let r := vsub (ch_goal c) e in
    match loop (fun H k => loop (hessian_pair s J (snd st) r k) (ch_bones c) H) (ch_bones c) (fst st) with
    | Some H => Some (H, (snd st + 3)%nat)
    | None => None
    end
  end.
(** api.py:284-353 [compute_hessian]; J must have the shape compute_jacobian gives it *)
Definition compute_hessian (cs : list chain) (s : skeleton) (J : matrix) : option matrix :=
  match loop (hessian_chain s J) cs (mat_gram J, 0%nat) with Some (H, _) => Some H | None => None end.

(** api.py:370-374 : the residual goal - end effector, chain after chain *)
Definition residual (s : skeleton) (c : chain) : option vec3 :=
  match get_end_effector c s with Some e => Some (vsub (ch_goal c) e) | None => None end.
Definition coords (v : vec3) : list R := [vx v; vy v; vz v].
(** api.py:356-376 [compute_gradient]; np.dot raises if the shapes do not match *)
Definition compute_gradient (cs : list chain) (s : skeleton) (J : matrix) : option (list R) :=
  match map_opt (residual s) cs with
  | None => None
  | Some rs => let r := concat (map coords rs) in
      if Nat.eqb (m_rows J) (length r)
      then Some (map (fun j => - sum_n (m_rows J) (fun k => m_at J k j * nth k r 0)) (seq 0 (m_cols J)))
      else None
  end.
(** api.py:379-396 [compute_objective] *)
Definition compute_objective (cs : list chain) (s : skeleton) : option R :=
  match loop (fun f c => match residual s c with Some r => Some (f + vdot r r) | None => None end) cs 0 with
  | Some f => Some (f * (1 / 2))
  | None => None
  end.

(** api.py:399-418 [set_angle]; idx may be negative (Python's // and % round down) *)
Definition set_angle (idx : Z) (x : R) (s : skeleton) : option skeleton :=
  match py_idx s (idx / 3) with
  | None => None
  | Some k =>
    match nth_error s k with
    | None => None
    | Some b =>
      let o := (idx mod 3)%Z in
      if Z.eqb o 0 then Some (list_upd s k (set_alpha b x))
      else if Z.eqb o 1 then Some (list_upd s k (set_beta b x))
      else if Z.eqb o 2 then Some (list_upd s k (set_gamma b x))
      else None
    end
  end.
(** api.py:421-439 [get_angle] *)
Definition get_angle (idx : Z) (s : skeleton) : option R :=
  match py_get s (idx / 3) with
  | None => None
  | Some b =>
      let o := (idx mod 3)%Z in
      if Z.eqb o 0 then Some (bn_alpha b) else if Z.eqb o 1 then Some (bn_beta b) else if Z.eqb o 2 then Some (bn_gamma b) else None
  end.

(** set some angles, update the skeleton, evaluate: the value and the skeleton afterwards *)
Definition objective_at (cs : list chain) (s : skeleton) : option (R * skeleton) :=
  match update_skeleton s with
  | Some s1 => match compute_objective cs s1 with Some f => Some (f, s1) | None => None end
  | None => None
  end.
Notation "'do' x <- e ; k" := (match e with Some x => k | None => None end) (at level 200, x pattern, e at level 100, k at level 200).
(** api.py:491-511 [__numerical_differentiation_first_derivative]: value and skeleton afterwards;
    [None] also for h = 0 (division by zero: nan or ZeroDivisionError) *)
Definition fd_first (cs : list chain) (s : skeleton) (i : nat) (h : R) : option (R * skeleton) :=
  let iz := Z.of_nat i in
  do theta <- get_angle iz s;
  do s1 <- set_angle iz (theta + h) s;
  do (f_iph, s2) <- objective_at cs s1;
  do s3 <- set_angle iz (theta - h) s2;
  do (f_imh, s4) <- objective_at cs s3;
  do s5 <- set_angle iz theta s4;
  if Reqb h 0 then None else Some ((f_iph - f_imh) / (2 * h), s5).
(** api.py:442-488 [__numerical_differentiation_second_derivative] *)
Definition fd_second (cs : list chain) (s : skeleton) (i j : nat) (h : R) : option (R * skeleton) :=
  let iz := Z.of_nat i in let jz := Z.of_nat j in
  if Nat.eqb i j then
    do (f_i, s0) <- objective_at cs s;
    do theta <- get_angle iz s0;
    do s1 <- set_angle iz (theta + h) s0;
    do (f_iph, s2) <- objective_at cs s1;
    do s3 <- set_angle iz (theta - h) s2;
    do (f_imh, s4) <- objective_at cs s3;
    do s5 <- set_angle iz theta s4;
    if Reqb h 0 then None else Some ((f_iph - 2 * f_i + f_imh) / (h * h), s5)
  else
    do ti <- get_angle iz s;
    do tj <- get_angle jz s;
    do s1 <- set_angle iz (ti + h) s;
    do s2 <- set_angle jz (tj + h) s1;
    do (f_pp, s3) <- objective_at cs s2;
    do s4 <- set_angle iz (ti - h) s3;
    do s5 <- set_angle jz (tj + h) s4;
    do (f_mp, s6) <- objective_at cs s5;
    do s7 <- set_angle iz (ti + h) s6;
    do s8 <- set_angle jz (tj - h) s7;
    do (f_pm, s9) <- objective_at cs s8;
    do s10 <- set_angle iz (ti - h) s9;
    do s11 <- set_angle jz (tj - h) s10;
    do (f_mm, s12) <- objective_at cs s11;
    do s13 <- set_angle iz ti s12;
    do s14 <- set_angle jz tj s13;
    if Reqb h 0 then None else Some ((f_pp - f_pm - f_mp + f_mm) / (4 * h * h), s14).
(** api.py:514-532 [compute_finite_difference_gradient]: the gradient and the skeleton afterwards *)
Definition fd_gradient (cs : list chain) (s : skeleton) (h : R) : option (list R * skeleton) :=
  loop (fun st i => do (d, s') <- fd_first cs (snd st) i h; Some (fst st ++ [d], s')) (seq 0 (length s * 3)) ([], s).
(** api.py:535-554 [compute_finite_difference_hessian]: the rows and the skeleton afterwards *)
Definition fd_hessian_row (cs : list chain) (s : skeleton) (N i : nat) (h : R) : option (list R * skeleton) :=
  loop (fun st j => do (d, s') <- fd_second cs (snd st) i j h; Some (fst st ++ [d], s')) (seq 0 N) ([], s).
Definition fd_hessian (cs : list chain) (s : skeleton) (h : R) : option (list (list R) * skeleton) :=
  loop (fun st i => do (r, s') <- fd_hessian_row cs (snd st) (length s * 3) i h; Some (fst st ++ [r], s')) (seq 0 (length s * 3)) ([], s).
