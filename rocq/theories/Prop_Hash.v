(** Property theorems C39, C73, C74: spatial hash (rainbow/geometry/spatial_hashing.py) and the spatial-hashing
    narrow phase of the soft-body collision detection. *)
From Verif Require Import Base BvhModel GridModel GridProofs BvhSpec BvhProofs KdopProofs HashModel HashProofs.
Open Scope Z_scope.

(** ** C39 *)
(** a history is a list of insertions (hash value of the cell, object, time stamp), oldest first; [objs H h t]
    are the objects inserted with hash h and stamp t, in order; [run H hg_empty] is the grid after H *)
Theorem C39_insert_returns_partial : forall (A : Type) (H : list event) h (x : A) t, monotone 0 (H ++ [(h, x, t)]) ->
  let r := hg_insert (run H hg_empty) h x t in
  let returned := hg_read (snd r) (fst r) in
  ((forall x' t', ~ In (h, x', t') H) -> returned = []) /\
  (forall x', In (h, x', t) H -> returned = objs H h t ++ [x]) /\
  (forall x' t', In (h, x', t') H -> t' < t -> (forall y t'', In (h, y, t'') H -> t'' <= t') -> returned = objs H h t').
Proof.
  intros A H h x t HM. assert (M : monotone 0 H /\ 0 <= t /\ forall e, In e H -> snd e <= t).
  { revert HM. generalize 0. induction H as [|e H IH]; intros t0 HM; cbn in *. { split; auto. split; [lia|]. intros e []. }
    destruct HM as [M1 M2]. destruct (IH _ M2) as (M3 & M4 & M5). split; [auto|]. split; [lia|]. intros e' [<-|He]; auto. }
  destruct M as (M1 & M2 & M3). assert (HI : inv H (run H hg_empty)) by (apply (run_inv H [] hg_empty 0); auto using inv_empty; [lia|intros e []]).
  intros r returned. destruct (insert_inv H (run H hg_empty) h x t HI M2 M3) as (_ & R1 & R2). split; [|split].
  - intros N. apply R1. intros [[h' x'] t'] He E. cbn in E. subst h'. eapply N; eauto.
  - intros x' Hx. unfold returned, r. rewrite (R2 t). + rewrite Z.ltb_irrefl. auto. + exists (h, x', t); auto. + intros e He _. auto.
  - intros x' t' Hx Hlt Hm. unfold returned, r. rewrite (R2 t'). + destruct (Z.ltb_spec t' t); [auto|lia]. + exists (h, x', t'); auto. + intros [[h1 y] t''] He E. cbn in *. subst h1. eapply Hm; eauto.
Qed.
Print Assumptions C39_insert_returns_partial.
(** nothing inserted earlier at time t in a cell with the same hash is missing from the returned list *)
Theorem C39_complete : forall (A : Type) (H : list event) h (x : A) t x', monotone 0 (H ++ [(h, x, t)]) -> In (h, x', t) H ->
  let r := hg_insert (run H hg_empty) h x t in In x' (hg_read (snd r) (fst r)).
Proof.
  intros A H h x t x' HM Hx r. destruct (C39_insert_returns_partial A H h x t HM) as (_ & R & _). cbv zeta in R. fold r in R. rewrite (R x' Hx).
  apply in_app_iff. left. apply objs_in. auto.
Qed.
Print Assumptions C39_complete.
(** false: "objects of older time steps are never returned": the lazy clear happens after the list was taken *)
Theorem C39_stale_refuted : exists H h (x x' : nat) t, monotone 0 (H ++ [(h, x, t)]) /\ (forall t', In (h, x', t') H -> t' < t) /\
  let r := hg_insert (run H hg_empty) h x t in In x' (hg_read (snd r) (fst r)).
Proof.
  exists [(7, 1%nat, 0)], 7, 2%nat, 1%nat, 1. split; [cbn; lia|]. split; [intros t' [E|[]]; injection E; lia|]. vm_compute. auto.
Qed.
Print Assumptions C39_stale_refuted.
(** false: "the objects earlier inserted": the second object inserted in a cell gets itself back *)
Theorem C39_self_refuted : exists H h (x : nat) t, monotone 0 (H ++ [(h, x, t)]) /\ (forall h' t', ~ In (h', x, t') H) /\
  let r := hg_insert (run H hg_empty) h x t in In x (hg_read (snd r) (fst r)).
Proof.
  exists [(7, 1%nat, 0)], 7, 2%nat, 0. split; [cbn; lia|]. split; [intros h' t' [E|[]]; discriminate|]. vm_compute. auto.
Qed.
Print Assumptions C39_self_refuted.
(** the hash is a function of the cell index within [0, 3(size-1)] and below 1e9+7 *)
Theorem C39_hash_range : forall size offset_size Phi i j k, 0 < size ->
  0 <= perfect_hash size offset_size Phi i j k <= 3 * (size - 1) /\ perfect_hash size offset_size Phi i j k < 1000000007.
Proof.
  intros size osz Phi i j k Hs. unfold perfect_hash. set (o := Phi _ _ _). cbv zeta.
  pose proof (Z.mod_pos_bound (i mod size + o) size Hs). pose proof (Z.mod_pos_bound (j mod size + o) size Hs). pose proof (Z.mod_pos_bound (k mod size + o) size Hs).
  set (s := (i mod size + o) mod size + (j mod size + o) mod size + (k mod size + o) mod size) in *.
  pose proof (Z.mod_pos_bound s 1000000007 eq_refl). pose proof (Z.mod_le s 1000000007 ltac:(lia) ltac:(lia)). lia.
Qed.
Print Assumptions C39_hash_range.
(** it is not perfect: cells whose indices agree modulo both table sizes always collide, whatever the table *)
Theorem C39_hash_collisions : forall size offset_size Phi i j k a b c, 0 < size -> 0 < offset_size ->
  perfect_hash size offset_size Phi (i + a * (size * offset_size)) (j + b * (size * offset_size)) (k + c * (size * offset_size)) = perfect_hash size offset_size Phi i j k.
Proof.
  intros size osz Phi i j k a b c Hs Ho. unfold perfect_hash. cbv zeta.
  assert (M1 : forall x n, (x + n * (size * osz)) mod size = x mod size) by (intros; replace (n * (size * osz)) with ((n * osz) * size) by ring; apply Z.mod_add; lia).
  assert (M2 : forall x n, (x + n * (size * osz)) mod osz = x mod osz) by (intros; replace (n * (size * osz)) with ((n * size) * osz) by ring; apply Z.mod_add; lia).
  rewrite !M1, !M2. auto.
Qed.
Print Assumptions C39_hash_collisions.
Example C39_nonvacuous : monotone 0 ([(3, 1%nat, 0); (4, 2%nat, 0); (3, 5%nat, 2)] ++ [(3, 9%nat, 2)]) /\
  let r := hg_insert (run [(3, 1%nat, 0); (4, 2%nat, 0); (3, 5%nat, 2)] hg_empty) 3 9%nat 2 in hg_read (snd r) (fst r) = [5; 9]%nat.
Proof. split; [cbn; lia|reflexivity]. Qed.

(** the average edge length times 2.2 is non-negative, and positive as soon as one edge has positive length *)
Open Scope R_scope.
Theorem C39_cell_size : forall V T s, optimal_cell_size V T = Some s -> 0 <= s /\
  (forall a b c pa pb pc, In (a, b, c) T -> py_get V a = Some pa -> py_get V b = Some pb -> py_get V c = Some pc -> pa <> pb -> 0 < s).
Proof.
  intros V T s E. unfold optimal_cell_size in E. destruct T as [|t0 T0]; [discriminate|]. set (T := t0 :: T0) in *.
  destruct (map_opt (edge_lengths V) T) as [ls|] eqn:El; [|discriminate]. assert (SI : forall x y : R, Some x = Some y -> x = y) by congruence. apply SI in E. clear SI. subst s.
  assert (G : forall T ls, map_opt (edge_lengths V) T = Some ls -> length (concat ls) = (3 * length T)%nat /\ (forall x, In x (concat ls) -> 0 <= x) /\
     (forall a b c pa pb pc, In (a, b, c) T -> py_get V a = Some pa -> py_get V b = Some pb -> py_get V c = Some pc -> In (vnorm (vsub pb pa)) (concat ls))).
  { clear. induction T as [|[[a b] c] T IH]; intros ls E; cbn in E.
    - assert (SI : forall x y : list (list R), Some x = Some y -> x = y) by congruence. apply SI in E. subst ls. split; auto. split; intros; contradiction.
    - destruct (py_get V a) as [pa|] eqn:Ea; [|discriminate]. destruct (py_get V b) as [pb|] eqn:Eb; [|discriminate]. destruct (py_get V c) as [pc|] eqn:Ec; [|discriminate].
      destruct (map_opt (edge_lengths V) T) as [l|]; [|discriminate]. assert (SI : forall x y : list (list R), Some x = Some y -> x = y) by congruence. apply SI in E. subst ls.
      destruct (IH l eq_refl) as (I1 & I2 & I3). split; [|split].
      + cbn. rewrite I1. lia.
      + cbn. intros x [<-|[<-|[<-|Hx]]]; auto; apply vnorm_nonneg.
      + intros a' b' c' pa' pb' pc' [Et|Ht] E1 E2 E3; [injection Et as <- <- <-; left; congruence|do 3 right; eapply I3; eauto]. }
  destruct (G T ls El) as (G1 & G2 & G3). clear G.
  assert (N : 0 < INR (length (concat ls))) by (rewrite G1; apply lt_0_INR; cbn; lia).
  assert (S0 : forall l, (forall x, In x l -> 0 <= x) -> 0 <= fold_right Rplus 0 l /\ forall x, In x l -> x <= fold_right Rplus 0 l).
  { induction l as [|y l IH]; intros Hl; cbn. { split; [lra|contradiction]. } destruct IH as [IH1 IH2]; [intros; apply Hl; cbn; auto|]. assert (0 <= y) by (apply Hl; cbn; auto).
    split; [lra|]. intros x [<-|Hx]; [lra|]. specialize (IH2 x Hx). lra. }
  destruct (S0 _ G2) as [S1 S2]. split.
  - apply Rmult_le_pos; [apply Rmult_le_pos; [auto|apply Rlt_le, Rinv_0_lt_compat; auto]|lra].
  - intros a b c pa pb pc Ht Ea Eb Ec Np. specialize (S2 _ (G3 a b c pa pb pc Ht Ea Eb Ec)).
    assert (0 < vnorm (vsub pb pa)). { apply vnorm_pos. intros Z. apply Np. destruct pa, pb. unfold vsub, vzero in Z. cbn in Z. injection Z as Z1 Z2 Z3. f_equal; lra. }
    apply Rmult_lt_0_compat; [apply Rdiv_lt_0_compat; lra|lra].
Qed.
Print Assumptions C39_cell_size.

(** ** C73 the spatial-hashing narrow phase misses no overlapping pair *)
Lemma zfloor_mono x y : x <= y -> (zfloor x <= zfloor y)%Z.
Proof. intros H. pose proof (floor_spec x). pose proof (floor_spec y). assert (IZR (zfloor x) < IZR (zfloor y + 1)) by (rewrite plus_IZR; lra). apply lt_IZR in H2. lia. Qed.
Lemma ztrunc_mono x y : x <= y -> (ztrunc x <= ztrunc y)%Z.
Proof.
  intros H. unfold ztrunc. destruct (Rltb_spec x 0), (Rltb_spec y 0).
  - assert (zfloor (- y) <= zfloor (- x))%Z by (apply zfloor_mono; lra). lia.
  - assert (0 <= zfloor (- x))%Z. { pose proof (floor_spec (- x)). assert (IZR (-1) < IZR (zfloor (- x))) by (cbn; lra). apply lt_IZR in H1. lia. }
    assert (0 <= zfloor y)%Z. { pose proof (floor_spec y). assert (IZR (-1) < IZR (zfloor y)) by (cbn; lra). apply lt_IZR in H2. lia. } lia.
  - lra.
  - apply zfloor_mono; auto.
Qed.
Lemma in_zrange lo hi z : In z (zrange lo hi) <-> (lo <= z < hi)%Z.
Proof.
  unfold zrange. rewrite in_map_iff. split.
  - intros (n & <- & Hn). apply in_seq in Hn. lia.
  - intros Hz. exists (Z.to_nat (z - lo)). split; [lia|]. apply in_seq. lia.
Qed.
Lemma in_cells cs t p : 0 < cs -> in_box p (tri_box t) -> In (ztrunc (vx p / cs), ztrunc (vy p / cs), ztrunc (vz p / cs)) (tri_cells cs t).
Proof.
  intros Hc [(a1 & a2 & a3) (b1 & b2 & b3)]. assert (D : forall x y, x <= y -> x / cs <= y / cs) by (intros; apply Rmult_le_compat_r; [apply Rlt_le, Rinv_0_lt_compat|]; auto).
  unfold tri_cells. apply in_flat_map. eexists. split; [|apply in_flat_map; eexists; split; [|apply in_map_iff; eexists; split; [reflexivity|]]];
    apply in_zrange; (split; [apply ztrunc_mono, D; auto|]); apply Z.lt_succ_r, ztrunc_mono, D; auto.
Qed.
Lemma classic_hash {A} (H : list (@event A)) h : (forall e, In e H -> fst (fst e) <> h) \/ exists e, In e H /\ fst (fst e) = h.
Proof.
  induction H as [|e H IH]; [left; intros e []|]. destruct (Z.eq_dec (fst (fst e)) h) as [E|N]; [right; exists e; cbn; auto|].
  destruct IH as [IH|(e' & He & E)]; [left; intros e' [<-|He]; auto|right; exists e'; cbn; auto].
Qed.
Lemma max_stamp {A} (H : list (@event A)) h e : In e H -> fst (fst e) = h ->
  exists e', In e' H /\ fst (fst e') = h /\ forall e'', In e'' H -> fst (fst e'') = h -> (snd e'' <= snd e')%Z.
Proof.
  revert e. induction H as [|a H IH]; intros e He Eh; [contradiction|].
  destruct (classic_hash H h) as [N|(e1 & He1 & Eh1)].
  - destruct He as [<-|He]; [|exfalso; eapply N; eauto]. exists a. split; [cbn; auto|]. split; auto. intros e'' [<-|He''] E; [lia|exfalso; eapply N; eauto].
  - destruct (IH e1 He1 Eh1) as (e' & He' & Eh' & M). destruct (Z.eq_dec (fst (fst a)) h) as [Ea|Na].
    + destruct (Z.le_gt_cases (snd e') (snd a)).
      * exists a. split; [cbn; auto|]. split; auto. intros e'' [<-|H''] E; [lia|]. specialize (M e'' H'' E). lia.
      * exists e'. split; [cbn; auto|]. split; auto. intros e'' [<-|H''] E; [lia|]. auto.
    + exists e'. split; [cbn; auto|]. split; auto. intros e'' [<-|H''] E; [congruence|auto].
Qed.
(** the stored event of a visit *)
Definition ev (hash : Z -> Z -> Z -> Z) (B : bodies) (ts : Z) (v : nat * nat * (Z * Z * Z)) : event :=
  let '(b, t, (i, j, k)) := v in (hash i j k, (t, b, tri_box (tri_of B b t)), ts).
Lemma fold_reports hash B ts vs : forall H g res, (0 <= ts)%Z -> inv H g -> (forall e, In e H -> (snd e <= ts)%Z) ->
  let r := fold_left (visit_step hash B ts) vs (g, res) in
  incl res (snd r) /\
  (forall P b t c S o, vs = P ++ (b, t, c) :: S -> In (let '(i, j, k) := c in hash i j k, o, ts) (H ++ map (ev hash B ts) P) -> incl (check_overlap B b t o) (snd r)) /\
  (forall rep, In rep (snd r) -> In rep res \/ exists b t c o h t', In (b, t, c) vs /\ In (h, o, t') (H ++ map (ev hash B ts) vs) /\ In rep (check_overlap B b t o)).
Proof.
  induction vs as [|v vs IH]; intros H g res Hts HI HT r.
  - cbn in r. subst r. split; [apply incl_refl|]. split; [intros P b t c S o E; destruct P; discriminate|auto].
  - destruct v as [[b t] [[i j] k]]. set (x := (t, b, tri_box (tri_of B b t)) : hobj).
    destruct (insert_inv H g (hash i j k) x ts HI Hts HT) as (I1 & I2 & I3).
    assert (Er : r = fold_left (visit_step hash B ts) vs (snd (hg_insert g (hash i j k) x ts), res ++ flat_map (check_overlap B b t) (hg_read (snd (hg_insert g (hash i j k) x ts)) (fst (hg_insert g (hash i j k) x ts))))).
    { unfold r. cbn [fold_left]. unfold visit_step at 2. cbn [fst snd]. fold x. destruct (hg_insert g (hash i j k) x ts) as [rr g1]. reflexivity. }
    set (g1 := snd (hg_insert g (hash i j k) x ts)) in *. set (ret := hg_read g1 (fst (hg_insert g (hash i j k) x ts))) in *.
    assert (HT1 : forall e, In e (H ++ [(hash i j k, x, ts)]) -> (snd e <= ts)%Z) by (intros e He; apply in_app_iff in He; destruct He as [He|[<-|[]]]; [auto|cbn; lia]).
    destruct (IH (H ++ [(hash i j k, x, ts)]) g1 (res ++ flat_map (check_overlap B b t) ret) Hts I1 HT1) as (J1 & J2 & J3). rewrite <- Er in J1, J2, J3.
    split; [|split].
    + intros y Hy. apply J1, in_app_iff. auto.
    + intros P b' t' c' S o E Ho. destruct P as [|v P].
      * cbn in E. injection E as <- <- <- _. cbn [map] in Ho. rewrite app_nil_r in Ho. intros y Hy. apply J1, in_app_iff. right. apply in_flat_map. exists o. split; auto.
        rewrite (I3 ts); [|exists (hash i j k, o, ts); auto|intros e He _; auto]. rewrite Z.ltb_irrefl. apply in_app_iff. left. apply objs_in. auto.
      * cbn in E. injection E as <- E. apply (J2 P b' t' c' S o E). rewrite <- app_assoc. exact Ho.
    + intros rep Hrep. destruct (J3 rep Hrep) as [Hr|(b' & t' & c' & o & h & t'' & E1 & E2 & E3)].
      * apply in_app_iff in Hr. destruct Hr as [Hr|Hr]; auto. right. apply in_flat_map in Hr. destruct Hr as (o & Ho & Hc).
        exists b, t, (i, j, k), o.
        destruct (classic_hash H (hash i j k)) as [N|(e & He & Eh)].
        -- rewrite (I2 N) in Ho. contradiction.
        -- destruct (max_stamp H (hash i j k) e He Eh) as (e' & He' & Eh' & M). rewrite (I3 (snd e')) in Ho; [|exists e'; auto|auto].
           destruct (snd e' <? ts)%Z.
           ++ apply objs_in in Ho. exists (hash i j k), (snd e'). split; [left; auto|]. split; auto. apply in_app_iff. auto.
           ++ apply in_app_iff in Ho. exists (hash i j k), ts. split; [left; auto|]. split; auto. apply in_app_iff. destruct Ho as [Ho|[<-|[]]]; [left; apply objs_in; auto|right; left; auto].
      * right. exists b', t', c', o, h, t''. split; [right; auto|]. split; auto. rewrite <- app_assoc in E2. auto.
Qed.

Lemma flat_map_split {A C} (f : A -> list C) l a b x y : (exists l1 l2 l3, l = l1 ++ a :: l2 ++ b :: l3) -> In x (f a) -> In y (f b) ->
  exists P Q S, flat_map f l = P ++ x :: Q ++ y :: S.
Proof.
  intros (l1 & l2 & l3 & ->) Hx Hy. apply in_split in Hx, Hy. destruct Hx as (x1 & x2 & Ex), Hy as (y1 & y2 & Ey).
  exists (flat_map f l1 ++ x1), (x2 ++ flat_map f l2 ++ y1), (y2 ++ flat_map f l3).
  rewrite !flat_map_app. cbn. rewrite !flat_map_app. cbn. rewrite Ex, Ey. repeat rewrite <- app_assoc. cbn. repeat rewrite <- app_assoc. cbn. reflexivity.
Qed.
Lemma seq_split n a b : (a < b < n)%nat -> exists l1 l2 l3, seq 0 n = l1 ++ a :: l2 ++ b :: l3.
Proof.
  intros H. exists (seq 0 a), (seq (S a) (b - a - 1)), (seq (S b) (n - b - 1)).
  replace n with (a + (S (b - a - 1 + S (n - b - 1))))%nat at 1 by lia. rewrite seq_app. f_equal. cbn. f_equal. rewrite seq_app. f_equal. replace (S a + (b - a - 1))%nat with b by lia. reflexivity.
Qed.
(** any number of earlier insertions with stamps up to the current one, in any cells *)
Definition earlier_grid (ts : Z) (g : hgrid hobj) : Prop := exists H, monotone 0 H /\ (forall e, In e H -> (snd e <= ts)%Z) /\ g = run H hg_empty.
Lemma phase_at hash cs B ts g a ta b tb c : 0 < cs -> (0 <= ts)%Z -> earlier_grid ts g ->
  (exists P Q S, visits cs B = P ++ (a, ta, c) :: Q ++ (b, tb, c) :: S) ->
  exists g' res, hash_narrow_phase hash cs B ts g = Some (g', res) /\ incl (check_overlap B b tb (ta, a, tri_box (tri_of B a ta))) res.
Proof.
  intros Hc Ht (H & HM & HT & ->) (P & Q & S & EV). unfold hash_narrow_phase. destruct (Rleb_spec cs 0); [lra|].
  assert (HI : inv H (run H hg_empty)) by (apply (run_inv H [] hg_empty 0%Z); auto using inv_empty; [lia|intros e []]).
  destruct (fold_reports hash B ts (visits cs B) H (run H hg_empty) [] Ht HI HT) as (_ & F & _).
  destruct (fold_left _ _ _) as [g' res] eqn:E. exists g', res. split; auto. cbn [snd] in F.
  apply (F (P ++ (a, ta, c) :: Q) b tb c S). { rewrite EV, <- app_assoc. reflexivity. }
  apply in_app_iff. right. rewrite map_app. apply in_app_iff. right. left. destruct c as [[i j] k]. reflexivity.
Qed.
Theorem C73_complete : forall hash cs B ts g a b ta tb, 0 < cs -> (0 <= ts)%Z -> earlier_grid ts g ->
  (a < b < length B)%nat -> (ta < length (nth a B []))%nat -> (tb < length (nth b B []))%nat ->
  (exists p, in_box p (tri_box (tri_of B a ta)) /\ in_box p (tri_box (tri_of B b tb))) ->
  exists g' res, hash_narrow_phase hash cs B ts g = Some (g', res) /\ In ((b, a), (tb, ta)) res.
Proof.
  intros hash cs B ts g a b ta tb Hc Ht Hg Hab Hta Htb (p & Pa & Pb).
  set (c := (ztrunc (vx p / cs), ztrunc (vy p / cs), ztrunc (vz p / cs))).
  destruct (phase_at hash cs B ts g a ta b tb c Hc Ht Hg) as (g' & res & E & I).
  { unfold visits. apply (flat_map_split _ _ a b); [apply seq_split; auto| |]; apply in_flat_map; [exists ta|exists tb]; (split; [apply in_seq; lia|apply in_map, in_cells; auto]). }
  exists g', res. split; auto. apply I. unfold check_overlap. destruct (Nat.eqb_spec a b); [lia|].
  assert (O : aabb_is_overlap (tri_box (tri_of B b tb)) (tri_box (tri_of B a ta)) 0 = true).
  { apply overlap_le. destruct Pa as [(a1 & a2 & a3) (b1 & b2 & b3)], Pb as [(c1 & c2 & c3) (d1 & d2 & d3)]. unfold v_le, grow_box. cbn. lra. }
  rewrite O. left. auto.
Qed.
Print Assumptions C73_complete.
(** in particular two triangles of different bodies that have a point in common are always reported *)
Definition in_triangle (p : vec3) (t : tri3) : Prop :=
  let '(a, b, c) := t in exists u v w, 0 <= u /\ 0 <= v /\ 0 <= w /\ u + v + w = 1 /\ p = vadd (vadd (vscale u a) (vscale v b)) (vscale w c).
Lemma comb_bounds u v w a b c : 0 <= u -> 0 <= v -> 0 <= w -> u + v + w = 1 ->
  Rmin (Rmin a b) c <= u * a + v * b + w * c <= Rmax (Rmax a b) c.
Proof.
  intros Hu Hv Hw Hs. set (m := Rmin (Rmin a b) c). set (M := Rmax (Rmax a b) c).
  assert (m <= a /\ m <= b /\ m <= c). { pose proof (Rmin_l (Rmin a b) c). pose proof (Rmin_r (Rmin a b) c). pose proof (Rmin_l a b). pose proof (Rmin_r a b). unfold m. lra. }
  assert (a <= M /\ b <= M /\ c <= M). { pose proof (Rmax_l (Rmax a b) c). pose proof (Rmax_r (Rmax a b) c). pose proof (Rmax_l a b). pose proof (Rmax_r a b). unfold M. lra. }
  split; [replace m with (u * m + v * m + w * m) by (rewrite <- !Rmult_plus_distr_r, Hs; ring)|replace M with (u * M + v * M + w * M) by (rewrite <- !Rmult_plus_distr_r, Hs; ring)];
    repeat apply Rplus_le_compat; apply Rmult_le_compat_l; lra.
Qed.
Lemma tri_box_valid t : valid_box (tri_box t).
Proof.
  destruct t as [[x y] z]. unfold valid_box, v_le, tri_box; cbn.
  assert (B : forall a b c, Rmin (Rmin a b) c <= Rmax (Rmax a b) c) by (intros a b c; pose proof (comb_bounds 1 0 0 a b c ltac:(lra) ltac:(lra) ltac:(lra) ltac:(lra)); lra).
  auto.
Qed.
Lemma in_triangle_box p t : in_triangle p t -> in_box p (tri_box t).
Proof.
  destruct t as [[a b] c]. intros (u & v & w & Hu & Hv & Hw & Hs & ->).
  unfold in_box, v_le, tri_box. cbn [bx_min bx_max vmin2 vmax2 vx vy vz vadd vscale].
  pose proof (comb_bounds u v w (vx a) (vx b) (vx c) Hu Hv Hw Hs). pose proof (comb_bounds u v w (vy a) (vy b) (vy c) Hu Hv Hw Hs). pose proof (comb_bounds u v w (vz a) (vz b) (vz c) Hu Hv Hw Hs). tauto.
Qed.
Theorem C73_touching_reported : forall hash cs B ts g a b ta tb p, 0 < cs -> (0 <= ts)%Z -> earlier_grid ts g ->
  (a < b < length B)%nat -> (ta < length (nth a B []))%nat -> (tb < length (nth b B []))%nat ->
  in_triangle p (tri_of B a ta) -> in_triangle p (tri_of B b tb) ->
  exists g' res, hash_narrow_phase hash cs B ts g = Some (g', res) /\ In ((b, a), (tb, ta)) res.
Proof. intros. apply C73_complete; auto. exists p. split; apply in_triangle_box; auto. Qed.
Print Assumptions C73_touching_reported.
(** every pair of triangles of one body that passes the self-collision test is reported *)
Theorem C73_self_complete : forall hash cs B ts g b ta tb, 0 < cs -> (0 <= ts)%Z -> earlier_grid ts g ->
  (b < length B)%nat -> (ta < tb < length (nth b B []))%nat ->
  is_self_collision (tri_of B b tb) (tri_of B b ta) (tri_box (tri_of B b tb)) (tri_box (tri_of B b ta)) = true ->
  exists g' res, hash_narrow_phase hash cs B ts g = Some (g', res) /\ In ((b, b), (tb, ta)) res.
Proof.
  intros hash cs B ts g b ta tb Hc Ht Hg Hb Htt Hs.
  assert (Hp : exists p, in_box p (tri_box (tri_of B b ta)) /\ in_box p (tri_box (tri_of B b tb))).
  { unfold is_self_collision in Hs. rewrite !andb_true_iff in Hs. destruct Hs as [[_ O] _]. apply overlap_le in O. apply box_meet in O.
    - destruct O as (p & O1 & O2). exists p. split; [revert O2|revert O1]; unfold in_box, v_le, grow_box; cbn; lra.
    - apply grow_valid; [lra|apply tri_box_valid].
    - apply grow_valid; [lra|apply tri_box_valid]. }
  destruct Hp as (p & Pa & Pb). set (c := (ztrunc (vx p / cs), ztrunc (vy p / cs), ztrunc (vz p / cs))).
  destruct (phase_at hash cs B ts g b ta b tb c Hc Ht Hg) as (g' & res & E & I).
  { destruct (flat_map_split (fun t => map (fun c => (b, t, c)) (tri_cells cs (tri_of B b t))) (seq 0 (length (nth b B []))) ta tb (b, ta, c) (b, tb, c)) as (P & Q & S & EF);
      [apply seq_split; auto|apply in_map, in_cells; auto|apply in_map, in_cells; auto|].
    unfold visits. assert (Hin : In b (seq 0 (length B))) by (apply in_seq; lia). apply in_split in Hin. destruct Hin as (l1 & l2 & ->). rewrite flat_map_app. cbn [flat_map]. rewrite EF.
    set (F := fun b0 => flat_map (fun t => map (fun c0 => (b0, t, c0)) (tri_cells cs (tri_of B b0 t))) (seq 0 (length (nth b0 B [])))).
    exists (flat_map F l1 ++ P), Q, (S ++ flat_map F l2). rewrite <- !app_assoc. cbn [app]. rewrite <- !app_assoc. cbn [app]. reflexivity. }
  exists g', res. split; auto. apply I. unfold check_overlap. rewrite Nat.eqb_refl, Hs. left. auto.
Qed.
Print Assumptions C73_self_complete.
(** with a fresh grid only pairs whose current boxes overlap (and that pass the self-collision test) are reported *)
Theorem C73_sound_partial : forall hash cs B ts g' res b a tb ta, (0 <= ts)%Z -> hash_narrow_phase hash cs B ts hg_empty = Some (g', res) -> In ((b, a), (tb, ta)) res ->
  (b < length B)%nat /\ (a < length B)%nat /\ (tb < length (nth b B []))%nat /\ (ta < length (nth a B []))%nat /\
  aabb_is_overlap (tri_box (tri_of B b tb)) (tri_box (tri_of B a ta)) 0 = true /\
  (b = a -> is_self_collision (tri_of B b tb) (tri_of B a ta) (tri_box (tri_of B b tb)) (tri_box (tri_of B a ta)) = true).
Proof.
  intros hash cs B ts g' res b a tb ta Ht E Hr. unfold hash_narrow_phase in E. destruct (Rleb cs 0); [discriminate|].
  assert (SI : forall x y : hgrid hobj * list report, Some x = Some y -> x = y) by congruence. apply SI in E. clear SI.
  destruct (fold_reports hash B ts (visits cs B) [] hg_empty [] Ht inv_empty) as (_ & _ & F); [intros e []|]. rewrite E in F. destruct (F _ Hr) as [[]|(b' & t' & c & o & h & t'' & H1 & H2 & H3)].
  assert (V : forall b t c, In (b, t, c) (visits cs B) -> (b < length B)%nat /\ (t < length (nth b B []))%nat).
  { clear. intros b t c H. unfold visits in H. apply in_flat_map in H. destruct H as (b' & Hb & H). apply in_flat_map in H. destruct H as (t' & Ht & H). apply in_map_iff in H. destruct H as (c' & Ec & _). injection Ec as <- <- _. apply in_seq in Hb, Ht. lia. }
  cbn [app] in H2. apply in_map_iff in H2. destruct H2 as ([[b2 t2] [[i j] k]] & E2 & V2). cbn in E2. injection E2 as _ <- _.
  apply V in H1, V2. cbn [check_overlap] in H3. destruct (Nat.eqb_spec b2 b') as [Eb|Nb].
  - destruct (is_self_collision _ _ _ _) eqn:S; [|contradiction]. destruct H3 as [H3|[]]. injection H3 as <- <- <- <-. repeat match goal with |- _ /\ _ => split end; try tauto; auto.
    unfold is_self_collision in S. rewrite !andb_true_iff in S. tauto.
  - destruct (aabb_is_overlap _ _ _) eqn:S; [|contradiction]. destruct H3 as [H3|[]]. injection H3 as <- <- <- <-. repeat match goal with |- _ /\ _ => split end; try tauto. intros; congruence.
Qed.
Print Assumptions C73_sound_partial.
(** false for later time steps: objects of the previous step are compared with their old boxes, so a pair of
    triangles that no longer are near each other is reported *)
Lemma stale_first hash cs B ts b0 T0 h x0 t0 : 0 < cs -> (0 <= t0 < ts)%Z -> B = (b0 :: T0) -> b0 <> [] -> (forall i j k, hash i j k = h) ->
  exists g' res, hash_narrow_phase hash cs B ts (run [(h, x0, t0)] hg_empty) = Some (g', res) /\ incl (check_overlap B 0 0 x0) res.
Proof.
  intros Hc Ht EB Nb Hh. unfold hash_narrow_phase. destruct (Rleb_spec cs 0); [lra|].
  assert (HI : inv [(h, x0, t0)] (run [(h, x0, t0)] hg_empty)). { apply (run_inv [(h, x0, t0)] [] hg_empty 0%Z); auto using inv_empty; [lia|intros e []|cbn; lia]. }
  destruct (tri_cells cs (tri_of B 0 0)) as [|c cs'] eqn:Ec.
  { exfalso. assert (In (ztrunc (vx (bx_min (tri_box (tri_of B 0 0))) / cs), ztrunc (vy (bx_min (tri_box (tri_of B 0 0))) / cs), ztrunc (vz (bx_min (tri_box (tri_of B 0 0))) / cs)) []); [|contradiction].
    rewrite <- Ec. apply in_cells; auto. pose proof (tri_box_valid (tri_of B 0 0)) as V. split; auto. unfold v_le. lra. }
  assert (EV : exists S, visits cs B = (0%nat, 0%nat, c) :: S).
  { clear - Ec EB Nb. subst B. destruct b0 as [|t00 b0]; [contradiction|]. unfold visits. cbn [length seq flat_map nth]. rewrite Ec. cbn. eexists. reflexivity. }
  destruct EV as (S & EV). rewrite EV. cbn [fold_left]. destruct c as [[i j] k].
  set (g := run [(h, x0, t0)] hg_empty) in *. set (x := (0%nat, 0%nat, tri_box (tri_of B 0 0)) : hobj).
  destruct (insert_inv [(h, x0, t0)] g (hash i j k) x ts HI ltac:(lia)) as (I1 & _ & I3); [intros e [<-|[]]; cbn; lia|].
  assert (ER : hg_read (snd (hg_insert g (hash i j k) x ts)) (fst (hg_insert g (hash i j k) x ts)) = [x0]).
  { rewrite (I3 t0). - destruct (Z.ltb_spec t0 ts); [|lia]. unfold objs. cbn. rewrite Hh, !Z.eqb_refl. auto. - exists (h, x0, t0). rewrite Hh. cbn; auto. - intros e [<-|[]] _. cbn. lia. }
  unfold visit_step at 2. cbn [fst snd]. fold x. destruct (hg_insert g (hash i j k) x ts) as [r g1]. cbn [fst snd] in *. rewrite ER. cbn [flat_map]. rewrite app_nil_r. cbn [app].
  destruct (fold_reports hash B ts S ([(h, x0, t0)] ++ [(hash i j k, x, ts)]) g1 (check_overlap B 0 0 x0) ltac:(lia) I1) as (F & _).
  { intros e [<-|[<-|[]]]; cbn; lia. }
  destruct (fold_left _ _ _) as [g' res]. exists g', res. split; auto.
Qed.
Theorem C73_stale_refuted : exists hash cs B ts g g' res a b ta tb, 0 < cs /\ earlier_grid ts g /\ a <> b /\ (a < length B)%nat /\ (b < length B)%nat /\
  hash_narrow_phase hash cs B ts g = Some (g', res) /\ In ((b, a), (tb, ta)) res /\
  aabb_is_overlap (tri_box (tri_of B b tb)) (tri_box (tri_of B a ta)) 0 = false.
Proof.
  set (B := [[(mkV 0 0 0, mkV 1 0 0, mkV 0 1 0)]; [(mkV 5 5 5, mkV 6 5 5, mkV 5 6 5)]]).
  set (x0 := (0%nat, 1%nat, mkAABB (mkV 0 0 0) (mkV 1 1 1)) : hobj).
  destruct (stale_first (fun _ _ _ => 0%Z) 1 B 1 _ _ 0 x0 0 ltac:(lra) ltac:(lia) eq_refl ltac:(discriminate) ltac:(auto)) as (g' & res & E & I).
  exists (fun _ _ _ => 0%Z), 1, B, 1%Z, (run [(0%Z, x0, 0%Z)] hg_empty), g', res, 1%nat, 0%nat, 0%nat, 0%nat.
  split; [lra|]. split; [exists [(0%Z, x0, 0%Z)]; split; [cbn; lia|split; [intros e [<-|[]]; cbn; lia|auto]]|].
  split; [lia|]. split; [cbn; lia|]. split; [cbn; lia|]. split; auto.
  assert (MM : forall x y, x <= y -> Rmin x y = x /\ Rmax x y = y) by (intros; split; [apply Rmin_left|apply Rmax_right]; auto).
  assert (MM' : forall x y, y <= x -> Rmin x y = y /\ Rmax x y = x) by (intros; split; [apply Rmin_right|apply Rmax_left]; auto).
  split.
  - apply I. unfold check_overlap, x0. cbn [Nat.eqb].
    assert (O : aabb_is_overlap (tri_box (tri_of B 0 0)) (mkAABB (mkV 0 0 0) (mkV 1 1 1)) 0 = true).
    { apply overlap_le. pose proof (in_triangle_box (mkV 0 0 0) (tri_of B 0 0)) as T. destruct T as [(t1 & t2 & t3) (t4 & t5 & t6)].
      - exists 1, 0, 0. cbn. repeat split; try lra. unfold vadd, vscale. cbn. f_equal; ring.
      - unfold v_le, grow_box. cbn [bx_min bx_max vx vy vz vsub vadd] in *. lra. }
    rewrite O. left. auto.
  - destruct (aabb_is_overlap _ _ 0) eqn:O; auto. exfalso. apply overlap_le in O. destruct O as [(o1 & _) _]. revert o1. cbn.
    rewrite (proj1 (MM 5 6 ltac:(lra))), (proj2 (MM 0 1 ltac:(lra))). rewrite (proj1 (MM 5 5 ltac:(lra))), (proj2 (MM' 1 0 ltac:(lra))). lra.
Qed.
Print Assumptions C73_stale_refuted.
Example C73_nonvacuous : exists g' res, hash_narrow_phase (perfect_hash 1000 1000 (fun _ _ _ => 0%Z)) 2 [[(mkV 0 0 0, mkV 1 0 0, mkV 0 1 0)]; [(mkV 1 0 0, mkV 3 0 0, mkV 1 3 4)]] 5 hg_empty = Some (g', res) /\ In ((1, 0), (0, 0))%nat res.
Proof.
  apply (C73_touching_reported _ _ _ _ _ 0 1 0 0 (mkV 1 0 0)); try (cbn; lia).
  - lra.
  - exists []. split; [cbn; auto|]. split; [intros e []|reflexivity].
  - exists 0, 1, 0. cbn. repeat split; try lra. unfold vadd, vscale. cbn. f_equal; ring.
  - exists 1, 0, 0. cbn. repeat split; try lra. unfold vadd, vscale. cbn. f_equal; ring.
Qed.

(** ** C74 the self-collision test *)
(** Specification: the triangles have a point in common *)
Definition triangles_meet (t1 t2 : tri3) : Prop := exists p, in_triangle p t1 /\ in_triangle p t2.
Definition common_vertex (t1 t2 : tri3) : Prop := exists p, In p (tri_vertices t1) /\ In p (tri_vertices t2).
(** what the test does guarantee *)
Theorem C74_reported_partial : forall v1 v2 v3 u1 u2 u3 b1 b2, is_self_collision (v1, v2, v3) (u1, u2, u3) b1 b2 = true ->
  ~ common_vertex (v1, v2, v3) (u1, u2, u3) /\ aabb_is_overlap b1 b2 0 = true /\
  exists l, 0 <= l <= 1 /\ vdot (vsub (vadd v1 (vscale l (vsub v2 v1))) u1) (vcross (vsub u2 u1) (vsub u3 u1)) = 0.
Proof.
  intros v1 v2 v3 u1 u2 u3 b1 b2 H. unfold is_self_collision in H. rewrite !andb_true_iff in H. destruct H as [[H1 H2] H3]. split; [|split; auto].
  - intros (p & Hp & Hq). apply negb_true_iff in H1. assert (is_share_vertex (v1, v2, v3) (u1, u2, u3) = true); [|congruence].
    unfold is_share_vertex. apply existsb_exists. exists (vx p). split; [unfold tri_coords; apply in_flat_map; exists p; cbn; auto|].
    apply existsb_exists. exists (vx p). split; [unfold tri_coords; apply in_flat_map; exists p; cbn; auto|apply Reqb_true; auto].
  - unfold triangle_intersection in H3. set (n2 := vcross (vsub u2 u1) (vsub u3 u1)) in *. set (a := vdot (vsub v2 v1) n2) in *.
    destruct (Rltb (- feps) a && Rltb a feps)%bool eqn:E1; [discriminate|]. cbv zeta in H3. destruct (Rltb (1 / a * vdot (vsub u1 v1) n2) 0 || Rltb 1 (1 / a * vdot (vsub u1 v1) n2))%bool eqn:E2; [discriminate|].
    apply orb_false_iff in E2. destruct E2 as [E2 E3]. apply Rltb_false in E2, E3. exists (1 / a * vdot (vsub u1 v1) n2). split; [lra|].
    assert (Na : a <> 0). { intros Ea. rewrite Ea in E1. assert (0 < feps) by (unfold feps; apply Rinv_0_lt_compat; lra). apply andb_false_iff in E1. rewrite !Rltb_false in E1. lra. }
    replace (vdot _ n2) with (1 / a * vdot (vsub u1 v1) n2 * vdot (vsub v2 v1) n2 - vdot (vsub u1 v1) n2) by (vunf; ring). fold a. field. auto.
Qed.
Print Assumptions C74_reported_partial.
Lemma ti_eval v1 v2 v3 u1 u2 u3 a sn w z :
  vdot (vsub v2 v1) (vcross (vsub u2 u1) (vsub u3 u1)) = a -> vdot (vsub u1 v1) (vcross (vsub u2 u1) (vsub u3 u1)) = sn ->
  vdot (vsub u2 u1) (vcross (vsub u1 v1) (vsub v2 v1)) = w -> vdot (vsub v3 v1) (vcross (vsub u1 v1) (vsub v2 v1)) = z ->
  triangle_intersection (v1, v2, v3) (u1, u2, u3) =
  (if Rltb (- feps) a && Rltb a feps then false else if Rltb (1 / a * sn) 0 || Rltb 1 (1 / a * sn) then false else
   if Rltb (1 / a * w) 0 || Rltb 1 (1 / a * sn + 1 / a * w) then false else Rltb feps (1 / a * z))%bool.
Proof. intros <- <- <- <-. reflexivity. Qed.
Lemma feps_bound : 0 < feps < 1.
Proof. unfold feps. split; [apply Rinv_0_lt_compat; lra|]. rewrite <- Rinv_1. apply Rinv_lt_contravar; lra. Qed.
Ltac rbool := repeat match goal with |- context [Rltb ?x ?y] => first [rewrite (proj2 (Rltb_true x y)) by lra | rewrite (proj2 (Rltb_false x y)) by lra] end; cbn [andb orb].
(** false: triangles that cross, without any common coordinate, whose test fails *)
Theorem C74_missed_refuted : exists t1 t2, ~ common_vertex t1 t2 /\ is_share_vertex t1 t2 = false /\ triangles_meet t1 t2 /\
  forall b1 b2, is_self_collision t1 t2 b1 b2 = false.
Proof.
  exists (mkV 0 0 2, mkV (-2) (-2) 0, mkV 0 6 0), (mkV (-5) (-1) (-1), mkV 3 9 1, mkV 1 1 1).
  assert (S : is_share_vertex (mkV 0 0 2, mkV (-2) (-2) 0, mkV 0 6 0) (mkV (-5) (-1) (-1), mkV 3 9 1, mkV 1 1 1) = false).
  { unfold is_share_vertex. cbn [tri_coords flat_map tri_vertices app vx vy vz existsb]. repeat match goal with |- context [Reqb ?x ?y] => rewrite (proj2 (Reqb_false x y)) by lra end. reflexivity. }
  split.
  { intros (p & Hp & Hq). cbn in Hp, Hq. destruct Hp as [<-|[<-|[<-|[]]]], Hq as [E|[E|[E|[]]]]; injection E; lra. }
  split; auto. split.
  - exists (mkV (-5/4) (1/4) (1/4)). split; [exists (1/8), (5/8), (1/4)|exists (3/8), 0, (5/8)]; (split; [lra|split; [lra|split; [lra|split; [lra|]]]]); unfold vadd, vscale; cbn [vx vy vz]; apply (f_equal3 mkV); field.
  - intros b1 b2. unfold is_self_collision. rewrite (ti_eval _ _ _ _ _ _ 64 56 (-56) (-40)) by (vunf; ring). pose proof feps_bound. rbool. apply andb_false_r.
Qed.
Print Assumptions C74_missed_refuted.
(** false: triangles without a common vertex are skipped as soon as one coordinate of the one equals any
    coordinate of the other *)
Theorem C74_shared_coordinate_refuted : exists t1 t2, ~ common_vertex t1 t2 /\ triangles_meet t1 t2 /\
  forall b1 b2, is_self_collision t1 t2 b1 b2 = false.
Proof.
  exists (mkV 2 3 0, mkV (-2) 3 0, mkV 1 (-4) 0), (mkV 7 5 (-6), mkV (-7) (-5) 6, mkV 9 3 11). split; [|split].
  - intros (p & Hp & Hq). cbn in Hp, Hq. destruct Hp as [<-|[<-|[<-|[]]]], Hq as [E|[E|[E|[]]]]; injection E; lra.
  - exists (mkV 0 0 0). split; [exists (5/28), (11/28), (3/7)|exists (1/2), (1/2), 0]; (split; [lra|split; [lra|split; [lra|split; [lra|]]]]); unfold vadd, vscale; cbn [vx vy vz]; apply (f_equal3 mkV); field.
  - intros b1 b2. unfold is_self_collision. replace (is_share_vertex _ _) with true; [reflexivity|]. symmetry. unfold is_share_vertex. apply existsb_exists. exists 3. split; [cbn; auto 12|].
    apply existsb_exists. exists 3. split; [cbn; auto 12|apply Reqb_true; auto].
Qed.
Print Assumptions C74_shared_coordinate_refuted.
(** false: a reported pair need not intersect *)
Theorem C74_false_alarm_refuted : exists t1 t2, is_self_collision t1 t2 (tri_box t1) (tri_box t2) = true /\ ~ triangles_meet t1 t2.
Proof.
  exists (mkV 0 (-2) 2, mkV 0 2 0, mkV 4 0 (-4)), (mkV 3 1 1, mkV 5 1 1, mkV 5 (-3) 7). split.
  - unfold is_self_collision. rewrite !andb_true_iff. split; [split|].
    + apply negb_true_iff. unfold is_share_vertex. cbn [tri_coords flat_map tri_vertices app vx vy vz existsb]. repeat match goal with |- context [Reqb ?x ?y] => rewrite (proj2 (Reqb_false x y)) by lra end. reflexivity.
    + apply overlap_le. set (t1 := (mkV 0 (-2) 2, mkV 0 2 0, mkV 4 0 (-4))). set (t2 := (mkV 3 1 1, mkV 5 1 1, mkV 5 (-3) 7)).
      assert (P1 : in_box (mkV 0 (-2) 2) (tri_box t1)) by (apply in_triangle_box; exists 1, 0, 0; (split; [lra|split; [lra|split; [lra|split; [lra|]]]]); unfold vadd, vscale; cbn [vx vy vz]; apply (f_equal3 mkV); ring).
      assert (P2 : in_box (mkV 0 2 0) (tri_box t1)) by (apply in_triangle_box; exists 0, 1, 0; (split; [lra|split; [lra|split; [lra|split; [lra|]]]]); unfold vadd, vscale; cbn [vx vy vz]; apply (f_equal3 mkV); ring).
      assert (P3 : in_box (mkV 4 0 (-4)) (tri_box t1)) by (apply in_triangle_box; exists 0, 0, 1; (split; [lra|split; [lra|split; [lra|split; [lra|]]]]); unfold vadd, vscale; cbn [vx vy vz]; apply (f_equal3 mkV); ring).
      assert (P4 : in_box (mkV 3 1 1) (tri_box t2)) by (apply in_triangle_box; exists 1, 0, 0; (split; [lra|split; [lra|split; [lra|split; [lra|]]]]); unfold vadd, vscale; cbn [vx vy vz]; apply (f_equal3 mkV); ring).
      revert P1 P2 P3 P4. generalize (tri_box t1) (tri_box t2). intros c1 c2. unfold in_box, v_le, grow_box. cbn. lra.
    + rewrite (ti_eval _ _ _ _ _ _ (-32) (-28) (-4) (-68)) by (vunf; ring). pose proof feps_bound. rbool. reflexivity.
  - (* separated by x + z = 3 *)
    intros (p & (u & v & w & Hu & Hv & Hw & Hs & Ep) & (u' & v' & w' & Hu' & Hv' & Hw' & Hs' & Ep')). rewrite Ep in Ep'. unfold vadd, vscale in Ep'. cbn in Ep'. injection Ep' as E1 E2 E3. lra.
Qed.
Print Assumptions C74_false_alarm_refuted.
Example C74_nonvacuous : exists v1 v2 v3 u1 u2 u3, is_self_collision (v1, v2, v3) (u1, u2, u3) (tri_box (v1, v2, v3)) (tri_box (u1, u2, u3)) = true.
Proof. destruct C74_false_alarm_refuted as ([[v1 v2] v3] & [[u1 u2] u3] & H & _). exists v1, v2, v3, u1, u2, u3. exact H. Qed.
