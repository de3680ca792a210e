(** Model of adaptors/back_edge_range.hpp (29-226).  The graph's rows hold arcs (target, attribute).  A std::map is an
    association list with ascending keys.  A reference to an arc is its place: in the graph, in back_address_extra or in
    address_extra; std::map<size_t, reference> (223) holds places in the graph. *)
From Coq Require Import List Arith ZArith Lia Bool.
From Verif Require Import Base.
Import ListNotations.
Set Implicit Arguments.

Notation amap A := (list (nat * A)) (only parsing).
Fixpoint afind A (k : nat) (m : amap A) : option A :=
  match m with [] => None | (k', x) :: m' => if k =? k' then Some x else afind k m' end.
(** std::map::emplace: an existing entry stays *)
Fixpoint aemplace A (k : nat) (x : A) (m : amap A) : amap A :=
  match m with
  | [] => [(k, x)]
  | (k', y) :: m' => if k <? k' then (k, x) :: m else if k =? k' then m else (k', y) :: aemplace k x m'
  end.
Fixpoint aset A (k : nat) (x : A) (m : amap A) : amap A :=
  match m with [] => [] | (k', y) :: m' => if k =? k' then (k', x) :: m' else (k', y) :: aset k x m' end.

Notation arc := (nat * Z)%type (only parsing).
(** the graph, back_address, back_address_extra, address_extra (222-225) *)
Record bst := mkB { b_g : list (list arc); b_ba : list (amap (nat * nat)); b_bx : list (amap arc); b_ax : list (amap arc) }.
(** [LReal v i]: position [i] of row [v]; [LBx u v]: back_address_extra[u][v]; [LAx v u]: address_extra[v][u] *)
Inductive loc := LReal (v i : nat) | LBx (u v : nat) | LAx (v u : nat).

(** reading and writing through a reference *)
Definition vget2 A (t : list (list A)) (v i : nat) : res A := do row <- vget t v ; vget row i.
Definition vset2 A (t : list (list A)) (v i : nat) (x : A) : res (list (list A)) := do row <- vget t v ; do row' <- vset row i x ; vset t v row'.
Definition mget A (t : list (amap A)) (u v : nat) : res A := do m <- vget t u ; match afind v m with Some x => Ok x | None => Ub end.
Definition mset A (t : list (amap A)) (u v : nat) (x : A) : res (list (amap A)) :=
  do m <- vget t u ; match afind v m with Some _ => vset t u (aset v x m) | None => Ub end.
Definition rd (st : bst) (l : loc) : res arc :=
  match l with LReal v i => vget2 (b_g st) v i | LBx u v => mget (b_bx st) u v | LAx v u => mget (b_ax st) v u end.
Definition wr (st : bst) (l : loc) (x : arc) : res bst :=
  match l with
  | LReal v i => do g <- vset2 (b_g st) v i x ; Ok (mkB g (b_ba st) (b_bx st) (b_ax st))
  | LBx u v => do m <- mset (b_bx st) u v x ; Ok (mkB (b_g st) (b_ba st) m (b_ax st))
  | LAx v u => do m <- mset (b_ax st) v u x ; Ok (mkB (b_g st) (b_ba st) (b_bx st) m)
  end.
(** an assignment to the attribute of the arc that a reference names, e.g. std::get<1>(r) = z *)
Definition put (st : bst) (l : loc) (z : Z) : res bst := do x <- rd st l ; wr st l (fst x, z).

(** back_address[u].insert_or_assign(v, r) (54-55, 196-197).  The mapped type is a tuple of references: if the key exists,
    the assignment goes through the reference and overwrites the arc it names. *)
Definition ioa (st : bst) (u v : nat) (r : nat * nat) : res bst :=
  do m <- vget (b_ba st) u ;
  match afind v m with
  | None => do ba <- vset (b_ba st) u (aemplace v r m) ; Ok (mkB (b_g st) ba (b_bx st) (b_ax st))
  | Some l => do x <- rd st (LReal (fst r) (snd r)) ; wr st (LReal (fst l) (snd l)) x
  end.
(** back_address[u].emplace(v, r) (62, 199) *)
Definition bemp (st : bst) (u v : nat) (r : nat * nat) : res bst :=
  do m <- vget (b_ba st) u ; do ba <- vset (b_ba st) u (aemplace v r m) ; Ok (mkB (b_g st) ba (b_bx st) (b_ax st)).
(** 50-51, 193-194: position of the first arc to [x], or the length of the row *)
Fixpoint bscan (row : list arc) (x i : nat) : nat :=
  match row with [] => i | a :: row' => if fst a =? x then i else bscan row' x (S i) end.
(** 58-62, 199-203: the missing arc from [v] back to [u] is stored in two maps; `edge extra_edge;` is a std::tuple, its
    members are value-initialised *)
Definition extra (st : bst) (u v : nat) (r : nat * nat) : res bst :=
  let e := (u, 0%Z) in
  do m <- vget (b_bx st) u ;
  do bx <- vset (b_bx st) u (aemplace v e m) ;
  do m' <- vget (b_ax st) v ;
  do ax <- vset (b_ax st) v (aemplace u e m') ;
  bemp (mkB (b_g st) (b_ba st) bx ax) v u r.

(** the body of the constructor's inner loop (43-64), for position [i] of row [u] *)
Definition b_step (u : nat) (st : bst) (i : nat) : res bst :=
  do a <- vget2 (b_g st) u i ;
  let v := fst a in
  do brow <- vget (b_g st) v ;
  do m <- vget (b_ba st) u ;
  match afind v m with
  | Some _ => Ok st
  | None =>
    let j := bscan brow u 0 in
    if j <? length brow then
      if u <? v then do st1 <- ioa st u v (v, j) ; ioa st1 v u (u, i) else Ok st
    else extra st u v (u, i)
  end.
Definition b_outer (st : bst) (u : nat) : res bst := do row <- vget (b_g st) u ; rfold (b_step u) (seq 0 (length row)) st.
(** constructor (38-67) *)
Definition b_make (g : list (list arc)) (as_needed : bool) : res bst :=
  let n := length g in
  let st := mkB g (repeat [] n) (repeat [] n) (repeat [] n) in
  if as_needed then Ok st else rfold b_outer (seq 0 n) st.

(** get_back_edge(vtx, vtx2) (178-213); the result is the new state and the place that the reference names *)
Definition b_find (st : bst) (u v : nat) : res (option loc) :=
  do m <- vget (b_ba st) u ;
  match afind v m with
  | Some r => Ok (Some (LReal (fst r) (snd r)))
  | None => do mx <- vget (b_bx st) u ; match afind v mx with Some _ => Ok (Some (LBx u v)) | None => Ok None end
  end.
Definition b_search (st : bst) (u v : nat) : res bst :=
  do row <- vget (b_g st) u ;
  let i := bscan row v 0 in
  if i <? length row then
    do brow <- vget (b_g st) v ;
    let j := bscan brow u 0 in
    if j <? length brow then do st1 <- ioa st v u (u, i) ; ioa st1 u v (v, j)
    else extra st u v (u, i)
  else Ok st.
Definition get_back (st : bst) (u v : nat) : res (bst * loc) :=
  do o <- b_find st u v ;
  match o with
  | Some l => Ok (st, l)
  | None =>
    do st' <- b_search st u v ;
    do o' <- b_find st' u v ;
    match o' with Some l => Ok (st', l) | None => Ub end
  end.
(** What an iteration over row [v] of the range visits (75-112, 120-121): the arcs of the graph, then the extra ones. *)
Definition b_view (st : bst) (v : nat) : res (list loc) :=
  do row <- vget (b_g st) v ;
  do m <- vget (b_ax st) v ;
  Ok (map (LReal v) (seq 0 (length row)) ++ map (fun e => LAx v (fst e)) m).

(** A history of calls and of assignments through the references obtained. *)
Inductive bop := Ask (u v : nat) | Put (l : loc) (z : Z).
Definition b_op (st : bst) (o : bop) : res bst :=
  match o with Ask u v => do r <- get_back st u v ; Ok (fst r) | Put l z => put st l z end.
Definition b_run (st : bst) (ops : list bop) : res bst := rfold b_op ops st.
