(** Model of the KD-tree: src/arkadia/{mod,kdt,leaf,neighbor,utils}.rs and
    src/utils/mod.rs (DIST).

    Conventions: [None] in an [option] produced by a step of the tree is a Rust panic (index out of
    bounds, [unwrap] on [None], division by zero).  [KDT] and [OwnedKDT] have the same code except
    for the split method, so one model serves both (KDT = MIDPOINT). *)
From Coq Require Import Bool List Arith Lia ZArith.
From Verif Require Import Num.
Import ListNotations.

Section Model.
Context (N : NumOps) (A : Type).
Notation T := (carrier N).

(** src/utils/mod.rs:264-273  enum DIST.  [cfavml::squared_euclidean] is SIMD code whose order of
    summation depends on the CPU: [simd_sq] is an arbitrary function. *)
Inductive DIST :=
| L1 | L2 | SQL2 | LINF
| L2SIMD (simd_sq : list T -> list T -> T)
| SQL2SIMD (simd_sq : list T -> list T -> T)
| ANY (f : list T -> list T -> T).

(** Iterator [zip] + [fold]: stops at the shorter list. *)
Fixpoint zip_fold (f : T -> T -> T -> T) (acc : T) (a b : list T) : T :=
  match a, b with
  | x :: a', y :: b' => zip_fold f (f acc x y) a' b'
  | _, _ => acc
  end.

(** src/utils/mod.rs:308-341  DIST::dist *)
Definition sqd (x y : T) : T := nmul N (nsub N x y) (nsub N x y).
Definition dist (d : DIST) (a1 a2 : list T) : T :=
  match d with
  | L1 => zip_fold (fun acc x y => nadd N acc (nabs N (nsub N x y))) (nzero N) a1 a2
  | L2 => nsqrt N (zip_fold (fun acc x y => nadd N acc (sqd x y)) (nzero N) a1 a2)
  | SQL2 => zip_fold (fun acc x y => nadd N acc (sqd x y)) (nzero N) a1 a2
  | LINF => zip_fold (fun acc x y => nmax N acc (nabs N (nsub N x y))) (nzero N) a1 a2
  | L2SIMD sq => nsqrt N (sq a1 a2)
  | SQL2SIMD sq => sq a1 a2
  | ANY f => f a1 a2
  end.

(** src/arkadia/leaf.rs:3-13  Leaf / OwnedLeaf *)
Record leaf := { item : A; row_vec : list T }.
Definition value_at (l : leaf) (i : nat) : option T := nth_error (row_vec l) i.   (* leaf.rs:48-50 *)

(** src/arkadia/kdt.rs:75-90, 446-463.  [dim], [capacity], [d] and [split_method] are the same in
    every node of one tree (copied by grow_new_leaf, 149-162), so they are arguments of the
    functions instead of fields.  A node has both children or none (they are always set together,
    266-267), so the two [Option<Box<_>>] fields become the two constructors. *)
Inductive kdt :=
| KLeaf (bounds : list T) (data : list leaf)
| KNode (split_axis : nat) (split_axis_value : T) (bounds : list T) (left right : kdt).

Definition bounds_of (t : kdt) : list T :=
  match t with KLeaf b _ => b | KNode _ _ b _ _ => b end.

(** src/arkadia/utils.rs:4-9 *)
Inductive SplitMethod := MIDPOINT | MEDIAN.

(** src/arkadia/utils.rs:21-33  suggest_capacity *)
Definition suggest_capacity (dim : nat) : nat :=
  if dim <? 5 then 10 else if dim <? 10 then 20 else if dim <? 15 then 40
  else if dim <? 20 then 100 else Z.to_nat 4098.

(** kdt.rs:97-98, 133-134: initial bounds, [MAX; dim] ++ [MIN; dim] *)
Definition empty_bounds (dim : nat) : list T := repeat (nmaxv N) dim ++ repeat (nminv N) dim.

(** [v[i] = x] on a vector; [None] = index out of bounds. *)
Fixpoint set_nth {X} (v : list X) (i : nat) (x : X) : option (list X) :=
  match v, i with
  | [], _ => None
  | _ :: v', 0 => Some (x :: v')
  | y :: v', S i' => match set_nth v' i' x with Some w => Some (y :: w) | None => None end
  end.

(** body of the loops kdt.rs:169-174, 177-183, 99-103:
    [bounds[i] = bounds[i].min(row[i]); bounds[i+dim] = bounds[i+dim].max(row[i])] *)
Definition update_bound_at (dim : nat) (b : list T) (row : list T) (i : nat) : option (list T) :=
  match nth_error row i with
  | None => None
  | Some v =>
    match nth_error b i with
    | None => None
    | Some lo =>
      match set_nth b i (nmin N lo v) with
      | None => None
      | Some b1 =>
        match nth_error b1 (i + dim) with
        | None => None
        | Some hi => set_nth b1 (i + dim) (nmax N hi v)
        end
      end
    end
  end.

(** kdt.rs:169-174  update_bounds: [for i in 0..dim] *)
Definition update_bounds (dim : nat) (b : list T) (row : list T) : option (list T) :=
  fold_left (fun ob i => match ob with None => None | Some b => update_bound_at dim b row i end)
            (seq 0 dim) (Some b).

(** kdt.rs:95-105  find_bounds *)
Definition find_bounds (dim : nat) (data : list leaf) : option (list T) :=
  fold_left (fun ob l => match ob with None => None | Some b => update_bounds dim b (row_vec l) end)
            data (Some (empty_bounds dim)).

(** Library routines used when a leaf node is split; the theorems quantify over all of them.
    [sort_key p l]: [sort_unstable_by_key(p)] with a boolean key; [sort_cmp cmp l]:
    [sort_unstable_by] with a comparison that never fails; [part_point p l]: [partition_point]. *)
Record SplitLib := {
  sort_key : (leaf -> bool) -> list leaf -> list leaf;
  sort_cmp : (leaf -> leaf -> bool) -> list leaf -> list leaf;
  part_point : (leaf -> bool) -> list leaf -> nat;
}.

(** The comparison closures read [value_at(axis)]; an out-of-range axis panics. *)
Definition all_have (axis : nat) (data : list leaf) : bool :=
  forallb (fun l => axis <? length (row_vec l)) data.
Definition val_or (axis : nat) (l : leaf) : T := nth axis (row_vec l) (nnanv N).

(** kdt.rs:232-239, 702-725: choose the split value and position, giving the reordered data.
    MEDIAN's comparator is [partial_cmp(..).unwrap()], which panics on NaN. *)
Definition split_leaf (lib : SplitLib) (sm : SplitMethod) (dim axis : nat) (b : list T)
    (data : list leaf) : option (T * nat * list leaf) :=
  match sm with
  | MIDPOINT =>
      match nth_error b axis, nth_error b (axis + dim) with
      | Some lo, Some hi =>
          let mid := nadd N lo (ndiv N (nsub N hi lo) (nadd N (none N) (none N))) in
          if all_have axis data then
            let sorted := sort_key lib (fun l => nle N mid (val_or axis l)) data in
            Some (mid, part_point lib (fun l => nlt N (val_or axis l) mid) sorted, sorted)
          else None
      | _, _ => None
      end
  | MEDIAN =>
      if all_have axis data && negb (existsb (fun l => nnan N (val_or axis l)) data) then
        let sorted := sort_cmp lib (fun x y => nle N (val_or axis x) (val_or axis y)) data in
        let idx := Nat.div2 (length sorted) in                     (* len() >> 1 *)
        match nth_error sorted idx with
        | Some m => Some (val_or axis m, idx, sorted)
        | None => None
        end
      else None
  end.

(** kdt.rs:222-276, 691-760  add_unchecked *)
Fixpoint add_unchecked (lib : SplitLib) (sm : SplitMethod) (dim cap : nat)
    (t : kdt) (l : leaf) (depth : nat) : option kdt :=
  match t with
  | KLeaf b data =>
      match update_bounds dim b (row_vec l) with          (* update_and_push *)
      | None => None
      | Some b' =>
          let data' := data ++ [l] in
          if cap <? length data' then
            if dim =? 0 then None                          (* depth % 0 panics *)
            else
              let axis := depth mod dim in
              match split_leaf lib sm dim axis b' data' with
              | None => None
              | Some (sv, idx, sorted) =>
                  let lft := firstn idx sorted in
                  let rgt := skipn idx sorted in
                  match lft with
                  | [] => Some (KLeaf b' rgt)
                  | _ :: _ =>
                      match find_bounds dim lft, find_bounds dim rgt with   (* grow_new_leaf *)
                      | Some bl, Some br =>
                          Some (KNode axis sv b' (KLeaf bl lft) (KLeaf br rgt))
                      | _, _ => None
                      end
                  end
              end
          else Some (KLeaf b' data')
      end
  | KNode axis sv b lt rt =>
      match update_bounds dim b (row_vec l), value_at l axis with
      | Some b', Some v =>
          if nlt N v sv then
            match add_unchecked lib sm dim cap lt l (S depth) with
            | Some lt' => Some (KNode axis sv b' lt' rt)
            | None => None
            end
          else
            match add_unchecked lib sm dim cap rt l (S depth) with
            | Some rt' => Some (KNode axis sv b' lt rt')
            | None => None
            end
      | _, _ => None
      end
  end.

(** kdt.rs:132-146  new_empty *)
Definition new_empty (dim : nat) : kdt := KLeaf (empty_bounds dim) [].

(** Adding leaves one after the other, e.g. kdt.rs:123-130 (loop body). *)
Definition add_all (lib : SplitLib) (sm : SplitMethod) (dim cap : nat) (t : kdt)
    (ls : list leaf) : option kdt :=
  fold_left (fun ot l => match ot with
                         | None => None
                         | Some t => add_unchecked lib sm dim cap t l 0 end) ls (Some t).

(** kdt.rs:123-130, 499-511  from_leaves_unchecked: [data[0]] panics on empty input. *)
Definition from_leaves_unchecked (lib : SplitLib) (sm : SplitMethod) (ls : list leaf)
  : option (nat * kdt) :=
  match ls with
  | [] => None
  | l0 :: _ =>
      let dim := length (row_vec l0) in
      match add_all lib sm dim (suggest_capacity dim) (new_empty dim) ls with
      | Some t => Some (dim, t)
      | None => None
      end
  end.

(** kdt.rs:199-209  attach_unchecked (KDT only): interior bounds are not updated. *)
Fixpoint attach_unchecked (dim : nat) (t : kdt) (l : leaf) : option kdt :=
  match t with
  | KLeaf b data =>
      match update_bounds dim b (row_vec l) with
      | Some b' => Some (KLeaf b' (data ++ [l]))
      | None => None
      end
  | KNode axis sv b lt rt =>
      match value_at l axis with
      | Some v =>
          if nlt N v sv then
            match attach_unchecked dim lt l with Some lt' => Some (KNode axis sv b lt' rt) | None => None end
          else
            match attach_unchecked dim rt l with Some rt' => Some (KNode axis sv b lt rt') | None => None end
      | None => None
      end
  end.

(** kdt.rs:648-661  count_all (explicit stack, left pushed first so right is popped first).
    [fuel] bounds the number of loop iterations. *)
Fixpoint size (t : kdt) : nat :=
  match t with KLeaf _ _ => 1 | KNode _ _ _ l r => S (size l + size r) end.
Fixpoint count_loop (fuel : nat) (stack : list kdt) (answer : nat) : option nat :=
  match stack with
  | [] => Some answer
  | top :: rest =>
      match fuel with
      | 0 => None
      | S f =>
          match top with
          | KLeaf _ data => count_loop f rest (answer + length data)
          | KNode _ _ _ l r => count_loop f (r :: l :: rest) answer
          end
      end
  end.
Definition count_all (t : kdt) : option nat := count_loop (size t) [t] 0.

(** ---- distance to a box ---- *)

(** One coordinate of kdt.rs:14-73: which side of the box the query is on. *)
Inductive side := SInside | SOut (edge : T).
Definition side_of (q lo hi : T) : side :=
  if nlt N hi q then SOut hi else if nlt N q lo then SOut lo else SInside.

(** The loop [for i in 0..point.len()], reading bounds[i] and bounds[i+dim]; [None] = out of bounds.
    In Rust bounds[i] is only read when the first comparison fails; since i < i + dim, a failing
    bounds[i] implies a failing bounds[i+dim], so reading both is equivalent. *)
Fixpoint sides (b : list T) (dim : nat) (i : nat) (q : list T) : option (list (T * side)) :=
  match q with
  | [] => Some []
  | x :: q' =>
      match nth_error b i, nth_error b (i + dim) with
      | Some lo, Some hi =>
          match sides b dim (S i) q' with
          | Some ss => Some ((x, side_of x lo hi) :: ss)
          | None => None
          end
      | _, _ => None
      end
  end.

Definition acc_sides (f : T -> T -> T -> T) (ss : list (T * side)) : T :=
  fold_left (fun acc s => match snd s with SInside => acc | SOut e => f acc (fst s) e end) ss (nzero N).

(** kdt.rs:14-73  _closest_dist_to_box.  [powi(2)] is [x*x]. *)
Definition closest_dist_to_box (b : list T) (q : list T) (dim : nat) (d : DIST) : option T :=
  match sides b dim 0 q with
  | None => None
  | Some ss =>
      Some (match d with
            | L1 => acc_sides (fun acc x e => nadd N acc (nabs N (nsub N x e))) ss
            | L2 | L2SIMD _ => nsqrt N (acc_sides (fun acc x e => nadd N acc (sqd x e)) ss)
            | SQL2 | SQL2SIMD _ => acc_sides (fun acc x e => nadd N acc (sqd x e)) ss
            | LINF => acc_sides (fun acc x e => nmax N acc (nabs N (nsub N x e))) ss
            | ANY f => f q (map (fun s => match snd s with SInside => fst s | SOut e => e end) ss)
            end)
  end.

(** ---- queries ---- *)

(** src/arkadia/neighbor.rs:5-8 *)
Record NB := { nb_dist : T; nb_item : A }.
Definition mkNB (d : DIST) (q : list T) (l : leaf) : NB :=
  {| nb_dist := dist d (row_vec l) q; nb_item := item l |}.

(** The stack [pending: Vec<(T, &KDT)>]; head of the list = top (last element of the Vec). *)
Definition stack := list (T * kdt).

(** Walk down to a leaf, pushing the siblings accepted by [keep] (kdt.rs:346-363, 380-395, 409-427).
    Returns the data of the leaf and the new stack. *)
Fixpoint descend (dim : nat) (d : DIST) (q : list T) (keep : T -> bool) (t : kdt) (pending : stack)
  : option (list leaf * stack) :=
  match t with
  | KLeaf _ data => Some (data, pending)
  | KNode axis sv _ lt rt =>
      match nth_error q axis with                               (* point[current.split_axis] *)
      | None => None
      | Some v =>
          if nlt N v sv then
            match closest_dist_to_box (bounds_of rt) q dim d with
            | None => None
            | Some db => descend dim d q keep lt (if keep db then (db, rt) :: pending else pending)
            end
          else
            match closest_dist_to_box (bounds_of lt) q dim d with
            | None => None
            | Some db => descend dim d q keep rt (if keep db then (db, lt) :: pending else pending)
            end
      end
  end.

(** kdt.rs:307-318  update_nb_within *)
Definition update_nb_within (d : DIST) (q : list T) (r : T) (data : list leaf) (nbs : list NB)
  : list NB :=
  fold_left (fun acc l => if nle N (dist d (row_vec l) q) r then acc ++ [mkNB d q l] else acc)
            data nbs.

(** kdt.rs:369-397 within_one_step, iterated as in mod.rs:143-145 *)
Fixpoint within_loop (fuel : nat) (dim : nat) (d : DIST) (q : list T) (r : T)
    (pending : stack) (nbs : list NB) : option (list NB) :=
  match pending with
  | [] => Some nbs
  | (db, t) :: rest =>
      match fuel with
      | 0 => None
      | S f =>
          if nlt N r db then within_loop f dim d q r rest nbs
          else match descend dim d q (fun x => nle N x r) t rest with
               | None => None
               | Some (data, pending') =>
                   within_loop f dim d q r pending' (update_nb_within d q r data nbs)
               end
      end
  end.

(** mod.rs:135-152  within.  Outer [option]: panic; inner [option]: the Rust return value.
    [sort_nb] is [sort_unstable] on neighbours. *)
Definition within (sort_nb : list NB -> list NB) (dim : nat) (d : DIST) (t : kdt) (q : list T) (r : T)
    (sort : bool) : option (option (list NB)) :=
  if nle N r (nadd N (nzero N) (neps N)) || existsb (fun x => negb (nfinite N x)) q then Some None
  else match within_loop (size t) dim d q r [(nminv N, t)] [] with
       | None => None
       | Some nbs => Some (Some (if sort then sort_nb nbs else nbs))
       end.

(** kdt.rs:400-436 within_count_one_step iterated as in mod.rs:162-164.  The u32 accumulator is
    kept unbounded here; [within_count_u32] below wraps it. *)
Fixpoint count_within_loop (fuel : nat) (dim : nat) (d : DIST) (q : list T) (r : T)
    (pending : stack) (cnt : nat) : option nat :=
  match pending with
  | [] => Some cnt
  | (db, t) :: rest =>
      match fuel with
      | 0 => None
      | S f =>
          if nlt N r db then count_within_loop f dim d q r rest (cnt + 0)
          else match descend dim d q (fun x => nle N x r) t rest with
               | None => None
               | Some (data, pending') =>
                   count_within_loop f dim d q r pending'
                     (cnt + fold_left (fun acc l => if nle N (dist d (row_vec l) q) r then S acc else acc)
                                      data 0)
               end
      end
  end.

(** mod.rs:154-167  within_count *)
Definition within_count (dim : nat) (d : DIST) (t : kdt) (q : list T) (r : T) : option (option nat) :=
  if nle N r (nadd N (nzero N) (neps N)) || existsb (fun x => negb (nfinite N x)) q then Some None
  else match count_within_loop (size t) dim d q r [(nminv N, t)] 0 with
       | None => None
       | Some c => Some (Some c)
       end.

(** [top_k.partition_point(|s| s.dist <= dist)]: the list is kept sorted, where the binary search
    returns the length of the longest prefix satisfying the predicate. *)
Fixpoint pp_prefix {X} (p : X -> bool) (l : list X) : nat :=
  match l with [] => 0 | x :: l' => if p x then S (pp_prefix p l') else 0 end.
Definition insert_at {X} (i : nat) (x : X) (l : list X) : list X := firstn i l ++ x :: skipn i l.

(** body of kdt.rs:287-303 *)
Definition topk_step (d : DIST) (k : nat) (q : list T) (maxb : T) (s : list NB * T) (l : leaf)
  : list NB * T :=
  let '(top_k, cur_max) := s in
  let di := dist d (row_vec l) q in
  if nle N di maxb && (nlt N di cur_max || (length top_k <? k)) then
    let idx := pp_prefix (fun nb => nle N (nb_dist nb) di) top_k in
    let top1 := insert_at idx (mkNB d q l) top_k in
    let top2 := if k <? length top1 then removelast top1 else top1 in
    (top2, nmax N cur_max di)
  else (top_k, cur_max).

(** kdt.rs:278-304  update_top_k *)
Definition update_top_k (d : DIST) (k : nat) (q : list T) (current_max maxb : T) (data : list leaf)
    (top_k : list NB) : list NB :=
  fst (fold_left (topk_step d k q maxb) data (top_k, current_max)).

(** [top_k.last().unwrap().dist]; the caller guarantees k > 0 so the list is non-empty. *)
Definition last_dist (top_k : list NB) : option T :=
  match rev top_k with [] => None | nb :: _ => Some (nb_dist nb) end.

(** kdt.rs:329-366 knn_one_step iterated as in mod.rs:129-131 *)
Fixpoint knn_loop (fuel : nat) (dim : nat) (d : DIST) (k : nat) (q : list T) (maxb eps : T)
    (pending : stack) (top_k : list NB) : option (list NB) :=
  match pending with
  | [] => Some top_k
  | (db, t) :: rest =>
      match fuel with
      | 0 => None
      | S f =>
          match (if length top_k <? k then Some maxb else last_dist top_k) with
          | None => None
          | Some current_max =>
              if nlt N current_max db then knn_loop f dim d k q maxb eps rest top_k
              else match descend dim d q (fun x => nlt N (nadd N x eps) current_max) t rest with
                   | None => None
                   | Some (data, pending') =>
                       knn_loop f dim d k q maxb eps pending'
                         (update_top_k d k q current_max maxb data top_k)
                   end
          end
      end
  end.

(** mod.rs:119-133  knn_bounded_unchecked *)
Definition knn_bounded_unchecked (dim : nat) (d : DIST) (t : kdt) (k : nat) (q : list T) (maxb eps : T)
  : option (list NB) :=
  knn_loop (size t) dim d k q maxb eps [(nminv N, t)] [].

(** mod.rs:94-117  knn_bounded *)
Definition knn_bounded (dim : nat) (d : DIST) (t : kdt) (k : nat) (q : list T) (maxb eps : T)
  : option (option (list NB)) :=
  if (k =? 0) || negb (length q =? dim) || existsb (fun x => negb (nfinite N x)) q
     || nle N maxb (neps N)
  then Some None
  else match knn_bounded_unchecked dim d t k q maxb eps with
       | None => None | Some r => Some (Some r) end.

(** mod.rs:79-92  knn *)
Definition knn (dim : nat) (d : DIST) (t : kdt) (k : nat) (q : list T) (eps : T)
  : option (option (list NB)) :=
  if (k =? 0) || negb (length q =? dim) || existsb (fun x => negb (nfinite N x)) q
  then Some None
  else match knn_bounded_unchecked dim d t k q (nmaxv N) eps with
       | None => None | Some r => Some (Some r) end.

End Model.

Arguments L1 {N}. Arguments L2 {N}. Arguments SQL2 {N}. Arguments LINF {N}.
Arguments L2SIMD {N}. Arguments SQL2SIMD {N}. Arguments ANY {N}.
Arguments item {N A}. Arguments row_vec {N A}.
Arguments KLeaf {N A}. Arguments KNode {N A}.
Arguments nb_dist {N A}. Arguments nb_item {N A}.
