(** Model of the choice of source vertices in the benchmarks: build_degrees, build_random_sources and
    load_sources_from_file (bench/common.hpp:111-154), the use made of them in bench/bc.cpp:98-122 and bench/bfs.cpp:88-104,
    and bench/SourceVerifier.cpp:41-71. A graph is the list of its rows (targets only). *)
From Coq Require Import List Arith Ascii Bool.
From Verif Require Import Base Pool ParBfsModel RangeModel CsrModel MmvModel.
Import ListNotations.
Set Implicit Arguments.
Local Open Scope nat_scope.

(** common.hpp:117-119: one atomic increment of an id of [M] values; a task is the list of the targets it still has to
    count. *)
Definition deg_step (M : nat) (t : list nat) (d : list nat) : res (option (list nat) * list nat) :=
  match t with
  | [] => Ok (None, d)
  | v :: r => do y <- vget d v ; do d' <- vset d v ((y + 1) mod M) ; Ok (Some r, d')
  end.
(** common.hpp:111-122: [t] is the way tbb splits the edge range, [sched] the interleaving of the pieces. *)
Definition build_degrees (M : nat) (g : list (list nat)) (t : stree) (sched : nat -> nat) : res (list nat) :=
  do ts <- rmap (fun r => do l <- edges_of_range (sum (map (@length nat) g)) g r ; Ok (map snd l)) (spieces or_split t (or_make g 0)) ;
  run_all (@length nat) (deg_step M) sched ts (repeat 0 (length g)).

(** common.hpp:134: [draw k] is the k-th value of dis(gen), each between 0 and num_vertices(graph) inclusive (131); the
    loop has no bound of its own. Result: the vertex and the number of values used so far. *)
Fixpoint pick (fuel : nat) (draw : nat -> nat) (degrees : list nat) (k : nat) : res (nat * nat) :=
  match fuel with
  | O => OutOfFuel
  | S f => do d <- vget degrees (draw k) ; if d =? 0 then pick f draw degrees (S k) else Ok (draw k, S k)
  end.
(** common.hpp:133-136. *)
Fixpoint picks (fuel : nat) (draw : nat -> nat) (degrees : list nat) (n k : nat) : res (list nat) :=
  match n with
  | O => Ok []
  | S n' => do r <- pick fuel draw degrees k ; do l <- picks fuel draw degrees n' (snd r) ; Ok (fst r :: l)
  end.
(** common.hpp:124-138. *)
Definition build_random_sources (fuel M : nat) (g : list (list nat)) (t : stree) (sched : nat -> nat) (draw : nat -> nat) (n : nat) : res (list nat) :=
  do degrees <- build_degrees M g t sched ;
  picks fuel draw degrees n 0.

(** The same on a compressed graph: the edge range runs over begin()..end() (edge_range.hpp:47-50), all of whose rows are
    looked at. *)
Definition csr_random_sources {A} (fuel M : nat) (h : csr A) (t : stree) (sched : nat -> nat) (draw : nat -> nat) (n : nat) : res (list nat) :=
  do rows <- csr_iterate h ;
  build_random_sources fuel M (map (map fst) rows) t sched draw n.

(** common.hpp:144-154: exit(1) when a number is asked for and the file has another one. [None]: a file whose numbers are
    not modelled (see MmvModel). *)
Inductive answer : Type := Got (sources : list nat) | Exit.
Definition load_sources (W : nat) (debug : bool) (file : list ascii) (n : nat) : option (res answer) :=
  match read_mm_vector W debug file with
  | Some r => Some (do s <- r ; if negb (n =? 0) && negb (length s =? n) then Ok Exit else Ok (Got s))
  | None => None
  end.

(** bc.cpp:67-68 (`asLong() ?: 1`). *)
Definition or_one (n : nat) : nat := if n =? 0 then 1 else n.
(** &sources[i]: operator[] asks for an element; without that rule ([strict] = false) the address one past the end is
    allowed as well. *)
Definition address (strict : bool) (l : list nat) (i : nat) : res nat :=
  if (if strict then i <? length l else i <=? length l) then Ok i else Ub.
(** bc.cpp:122. *)
Definition trial_sources (strict : bool) (sources : list nat) (iterations i : nat) : res (list nat) :=
  do b <- address strict sources (iterations * i) ;
  do e <- address strict sources (iterations * (i + 1)) ;
  vslice sources b e.
(** bc.cpp:121-122: the sources of all the trials. *)
Definition bc_trials (strict : bool) (sources : list nat) (trials iterations : nat) : res (list (list nat)) :=
  rmap (trial_sources strict sources iterations) (seq 0 trials).

(** How the benchmarks are told their sources (bc.cpp:99-106, bfs.cpp:90-98). *)
Inductive choice : Type := FromFile (file : list ascii) | FromNode (r : nat) | Random (t : stree) (sched draw : nat -> nat).
(** bc.cpp:98-106: trials * iterations of them. *)
Definition bc_sources (fuel M : nat) (debug : bool) (g : list (list nat)) (c : choice) (trials iterations : nat) : option (res answer) :=
  let n := or_one trials * or_one iterations in
  match c with
  | FromFile f => load_sources M debug f n
  | FromNode r => Some (Ok (Got (repeat (r mod M) n)))
  | Random t sched draw => Some (do s <- build_random_sources fuel M g t sched draw n ; Ok (Got s))
  end.
(** bfs.cpp:89-98: one per trial; a file sets the number of trials itself. The runs visit all of [sources] (108). *)
Definition bfs_sources (fuel M : nat) (debug : bool) (g : list (list nat)) (c : choice) (trials : nat) : option (res answer) :=
  match c with
  | FromFile f => load_sources M debug f 0
  | FromNode r => Some (Ok (Got (repeat (r mod M) (or_one trials))))
  | Random t sched draw => Some (do s <- build_random_sources fuel M g t sched draw (or_one trials) ; Ok (Got s))
  end.

(** SourceVerifier.cpp:60-67. *)
Fixpoint mismatches (sources random : list nat) : nat :=
  match sources, random with
  | a :: s, b :: r => (if a =? b then 0 else 1) + mismatches s r
  | _, _ => 0
  end.
(** SourceVerifier.cpp:49-68 after the file has been read; [None]: the early return of 51-54. *)
Definition source_verifier (fuel M : nat) (g : list (list nat)) (t : stree) (sched draw : nat -> nat) (sources : list nat) (trials iterations : nat) : res (option nat) :=
  if negb (length sources =? trials * iterations) then Ok None
  else do random <- build_random_sources fuel M g t sched draw (length sources) ; Ok (Some (mismatches sources random)).
