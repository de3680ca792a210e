(** Model of util/disjoint_set.hpp: the free functions (40-90) and the parts of class disjoint_set that
    compile (116-123, 182-233, 268-302, 323-369, 417-429). *)
From Coq Require Import List Arith ZArith Bool.
From Verif Require Import Base.
Import ListNotations.
Set Implicit Arguments.

(** std::vector<std::pair<vertex_id_type, size_t>>: (parent, rank). *)
Definition dsu : Type := list (nat * nat).
(** The initialisation every client performs (e.g. kruskal.hpp:57-61). *)
Definition dsu_init (n : nat) : dsu := map (fun i => (i, 0)) (seq 0 n).

Definition dsu_first (s : dsu) (v : nat) : res nat := do x <- vget s v ; Ok (fst x).
Definition dsu_second (s : dsu) (v : nat) : res nat := do x <- vget s v ; Ok (snd x).
Definition dsu_set_first (s : dsu) (v p : nat) : res dsu := do x <- vget s v ; vset s v (p, snd x).
Definition dsu_inc_second (s : dsu) (v : nat) : res dsu := do x <- vget s v ; vset s v (fst x, snd x + 1).

(** disjoint_set.hpp:42-44. *)
Fixpoint dfind_loop (fuel : nat) (s : dsu) (parent : nat) : res nat :=
  do p <- dsu_first s parent ;
  if parent =? p then Ok parent
  else match fuel with 0 => OutOfFuel | S f => dfind_loop f s p end.
(** disjoint_set.hpp:45-48. *)
Fixpoint dcompress (fuel : nat) (s : dsu) (vtx parent : nat) : res dsu :=
  if vtx =? parent then Ok s
  else match fuel with
       | 0 => OutOfFuel
       | S f =>
           do vtx' <- dsu_first s vtx ;
           do s' <- dsu_set_first s vtx' parent ;
           dcompress f s' vtx' parent
       end.
(** disjoint_set.hpp:40-51. *)
Definition disjoint_find (s : dsu) (vtx : nat) : res (nat * dsu) :=
  do p <- dsu_first s vtx ;
  do r <- dfind_loop (length s) s p ;
  do s' <- dcompress (length s) s vtx r ;
  Ok (r, s').

(** disjoint_set.hpp:57-66 and 75-84: linking by rank. *)
Definition dsu_link (s : dsu) (u_root v_root : nat) : res dsu :=
  do ru <- dsu_second s u_root ;
  do rv <- dsu_second s v_root ;
  if ru <? rv then dsu_set_first s u_root v_root
  else if rv <? ru then dsu_set_first s v_root u_root
  else do s1 <- dsu_set_first s v_root u_root ; dsu_inc_second s1 u_root.

(** disjoint_set.hpp:53-67. *)
Definition disjoint_union (s : dsu) (u v : nat) : res dsu :=
  do x <- disjoint_find s u ;
  let (u_root, s1) := x in
  do y <- disjoint_find s1 v ;
  let (v_root, s2) := y in
  dsu_link s2 u_root v_root.

(** disjoint_set.hpp:69-90. *)
Definition disjoint_union_find (s : dsu) (u v : nat) : res (bool * dsu) :=
  do x <- disjoint_find s u ;
  let (u_root, s1) := x in
  do y <- disjoint_find s1 v ;
  let (v_root, s2) := y in
  if negb (u_root =? v_root) then do s3 <- dsu_link s2 u_root v_root ; Ok (true, s3)
  else Ok (false, s2).

(** A client making a sequence of calls. *)
Inductive dsu_op : Type := OpFind (u : nat) | OpUnion (u v : nat) | OpUnionFind (u v : nat).
Inductive dsu_out : Type := OutRoot (r : nat) | OutUnit | OutBool (b : bool).
Definition dsu_exec (s : dsu) (o : dsu_op) : res (dsu_out * dsu) :=
  match o with
  | OpFind u => do x <- disjoint_find s u ; Ok (OutRoot (fst x), snd x)
  | OpUnion u v => do s' <- disjoint_union s u v ; Ok (OutUnit, s')
  | OpUnionFind u v => do x <- disjoint_union_find s u v ; Ok (OutBool (fst x), snd x)
  end.
Fixpoint dsu_run (s : dsu) (ops : list dsu_op) : res (list dsu_out * dsu) :=
  match ops with
  | [] => Ok ([], s)
  | o :: rest =>
      do x <- dsu_exec s o ;
      do y <- dsu_run (snd x) rest ;
      Ok (fst x :: fst y, snd y)
  end.

(** * class disjoint_set<T>, T signed: sets_ of maxid_ entries; a negative entry marks a root. *)
(** Constructor (116-123): memset(-1). *)
Definition ds_new (n : nat) : list Z := repeat (-1)%Z n.

(** Outcome of a member function: the range check throws. *)
Inductive ds_res (A : Type) : Type := DsOk (a : A) | DsThrow | DsUb | DsFuel.
Arguments DsOk {A}. Arguments DsThrow {A}. Arguments DsUb {A}. Arguments DsFuel {A}.
Definition of_res {A} (r : res A) : ds_res A := match r with Ok a => DsOk a | Ub => DsUb | OutOfFuel => DsFuel end.
Definition ds_bind {A B} (m : ds_res A) (f : A -> ds_res B) : ds_res B :=
  match m with DsOk a => f a | DsThrow => DsThrow | DsUb => DsUb | DsFuel => DsFuel end.

(** The check [index > maxid_ || index < 0] (lines 184, 219). *)
Definition ds_check (s : list Z) (index : Z) : bool := (Z.of_nat (length s) <? index)%Z || (index <? 0)%Z.
Definition ds_get (s : list Z) (i : nat) : res Z := vget s i.

(** find_with_pathcompression's loops (199-207). *)
Fixpoint ds_climb (fuel : nat) (s : list Z) (index : nat) (stk : list nat) : res (nat * list nat) :=
  do v <- ds_get s index ;
  if (0 <=? v)%Z then
    match fuel with
    | 0 => OutOfFuel
    | S f => ds_climb f s (Z.to_nat v) (index :: stk)
    end
  else Ok (index, stk).
Definition ds_compress (s : list Z) (stk : list nat) (root : nat) : res (list Z) :=
  rfold (fun s x => vset s x (Z.of_nat root)) stk s.
Definition ds_find_pc (s : list Z) (index : Z) : ds_res (nat * list Z) :=
  if ds_check s index then DsThrow
  else of_res (do x <- ds_climb (length s) s (Z.to_nat index) [] ;
               do s' <- ds_compress s (snd x) (fst x) ;
               Ok (fst x, s')).

(** find (217-233): the loop variable starts at 0, not at index. *)
Definition ds_find (s : list Z) (index : Z) : ds_res nat :=
  if ds_check s index then DsThrow
  else of_res (do x <- ds_climb (length s) s 0 [] ; Ok (fst x)).

(** combineBySize (350-369). *)
Definition ds_combine_by_size (s : list Z) (u v : nat) : res (list Z) :=
  do su <- ds_get s u ;
  do sv <- ds_get s v ;
  if (sv <? su)%Z then
    do s1 <- vset s v (sv + su)%Z ; vset s1 u (Z.of_nat v)
  else
    do s1 <- vset s u (su + sv)%Z ; vset s1 v (Z.of_nat u).
(** unionBySize (323-331); unionByHeight differs only in the combine function, see [ds_union_by_height]. *)
Definition ds_union_by_size (s : list Z) (u v : Z) : ds_res (list Z) :=
  ds_bind (ds_find s u) (fun ru =>
  ds_bind (ds_find s v) (fun rv =>
  if negb (ru =? rv) then of_res (ds_combine_by_size s ru rv) else DsOk s)).
(** combineByHeight(v, u) (417-429); called as combineByHeight(rootu, rootv). *)
Definition ds_combine_by_height (s : list Z) (v u : nat) : res (list Z) :=
  do su <- ds_get s u ;
  do sv <- ds_get s v ;
  if (su <? sv)%Z then vset s v (Z.of_nat u)
  else
    do s1 <- (if (su =? sv)%Z then vset s v (sv - 1)%Z else Ok s) ;
    vset s1 u (Z.of_nat v).
Definition ds_union_by_height (s : list Z) (u v : Z) : ds_res (list Z) :=
  ds_bind (ds_find s u) (fun ru =>
  ds_bind (ds_find s v) (fun rv =>
  if negb (ru =? rv) then of_res (ds_combine_by_height s ru rv) else DsOk s)).
(** join (268-302). *)
Definition ds_join (s : list Z) (u v : Z) : ds_res (list Z) :=
  if (u =? v)%Z then DsOk s
  else
  ds_bind (ds_find s u) (fun ru =>
  ds_bind (ds_find s v) (fun rv =>
  if negb (ru =? rv) then
    of_res (do srv <- ds_get s rv ;
            do sru <- ds_get s ru ;
            if (srv <? -1)%Z then
              if negb (v =? Z.of_nat rv)%Z then
                do s1 <- vset s rv (srv + 1)%Z ;
                do s2 <- vset s1 ru (sru - 1)%Z ;
                vset s2 (Z.to_nat v) (Z.of_nat ru)
              else
                do s1 <- vset s ru (sru + srv)%Z ;
                vset s1 (Z.to_nat v) (Z.of_nat ru)
            else
              do s1 <- vset s (Z.to_nat v) (Z.of_nat ru) ;
              vset s1 ru (sru - 1)%Z)
  else DsOk s)).

(** The correct use of the class: find_with_pathcompression on both, then combine the roots. *)
Definition ds_union_pc (s : list Z) (u v : Z) : ds_res (list Z) :=
  ds_bind (ds_find_pc s u) (fun x =>
  ds_bind (ds_find_pc (snd x) v) (fun y =>
  if negb (fst x =? fst y) then of_res (ds_combine_by_size (snd y) (fst x) (fst y)) else DsOk (snd y))).
(** The same with combineByHeight, called as in unionByHeight. *)
Definition ds_union_pc_height (s : list Z) (u v : Z) : ds_res (list Z) :=
  ds_bind (ds_find_pc s u) (fun x =>
  ds_bind (ds_find_pc (snd x) v) (fun y =>
  if negb (fst x =? fst y) then of_res (ds_combine_by_height (snd y) (fst x) (fst y)) else DsOk (snd y))).
