(** * MCrossover: model of src/operators/crossover.rs. *)
From Coq Require Import List Bool Arith NArith.
From Verif Require Import Rnd MOperators.
Import ListNotations.

Section Crossover.
Context {G : Type} (eqb : G -> G -> bool) (ltb : G -> G -> bool).

(** src/operators/crossover.rs:645-648 find_position *)
Fixpoint find_position (target : G) (genome : list G) : option nat :=
  match genome with
  | [] => None
  | g :: t => if eqb g target then Some 0
              else match find_position target t with Some i => Some (S i) | None => None end
  end.

(** [parent1.iter().find(|gene| !visited.contains(gene))] *)
Definition first_unvisited (genome visited : list G) : option G :=
  find (fun g => negb (mem eqb g visited)) genome.

(** src/operators/crossover.rs:165-184 the [while] loop of GPX2.  The selector
    is an [FnMut]: it owns a state [S0], may draw random numbers, and sees the
    last gene of the offspring and the remaining partitions.  The fuel (number
    of partitions + 1) is proved sufficient. *)
Fixpoint gpx2_loop {S0} (sel : S0 -> option G -> list (list G) -> M (nat * S0))
    (fuel : nat) (s : S0) (offspring : list G) (partitions : list (list G)) : M (list G) :=
  match fuel with
  | O => Fail NoFuel
  | S f =>
      match partitions with
      | [] => Ret offspring
      | _ =>
          '(i, s') <- sel s (last (map Some offspring) None) partitions ;;
          '(partition, rest) <- swap_remove partitions i ;;
          let rest1 := map (filter (fun g => negb (mem eqb g partition))) rest in
          let rest2 := filter (fun p => negb (length p =? 0)) rest1 in
          gpx2_loop sel f s' (offspring ++ partition) rest2
      end
  end.

(** src/operators/crossover.rs:152-186 generalized_partition_2_crossover *)
Definition generalized_partition_2_crossover {S0} (p1 p2 : list G)
    (sel : S0 -> option G -> list (list G) -> M (nat * S0)) (s : S0) : M (list G) :=
  partitions <- common_partitions eqb ltb p1 p2 ;;
  gpx2_loop sel (S (length partitions)) s [] partitions.

(** src/operators/crossover.rs:242-251 successor position, wrapping *)
Definition succ_pos (n pos : nat) : nat := if negb (pos + 1 =? n) then pos + 1 else 0.

(** src/operators/crossover.rs:237-279 body of the SCX loop: the next gene *)
Definition scx_next (p1 p2 : list G) (visited : list G) (current : G) : M G :=
  let n := length p1 in
  pos1 <- unwrap (find_position current p1) ;;
  pos2 <- unwrap (find_position current p2) ;;
  next1 <- idx p1 (succ_pos n pos1) ;;
  next2 <- idx p2 (succ_pos n pos2) ;;
  let v1 := mem eqb next1 visited in
  let v2 := mem eqb next2 visited in
  if v1 && v2 then unwrap (first_unvisited p1 visited)
  else if v1 then Ret next2
  else if v2 then Ret next1
  else
    next1_pos2 <- unwrap (find_position next1 p2) ;;
    next2_pos1 <- unwrap (find_position next2 p1) ;;
    Ret (if next1_pos2 <? next2_pos1 then next1 else next2).

(** src/operators/crossover.rs:234-283 the SCX loop ([k] positions still to
    fill); returns the genes after [current]. *)
Fixpoint scx_loop (p1 p2 : list G) (k : nat) (visited : list G) (current : G) : M (list G) :=
  match k with
  | O => Ret []
  | S k' =>
      nx <- scx_next p1 p2 (current :: visited) current ;;
      rest <- scx_loop p1 p2 k' (current :: visited) nx ;;
      Ret (nx :: rest)
  end.

(** src/operators/crossover.rs:219-285 sequential_constructive_crossover *)
Definition sequential_constructive_crossover (p1 p2 : list G) (pivot : G) : M (list G) :=
  _ <- massert (length p1 =? length p2) ;;
  let n := length p1 in
  if n <? 2 then Ret p1
  else rest <- scx_loop p1 p2 (n - 1) [] pivot ;; Ret (pivot :: rest).

(** The HashMap from genes to neighbour sets, as an association list whose
    sets are lists without duplicates; its iteration order is never observable
    except through [edge_next] below. *)
Definition nmap := list (G * list G).

(** [HashSet::insert] *)
Definition set_insert (x : G) (s : list G) : list G := if mem eqb x s then s else s ++ [x].

(** [HashSet::remove] *)
Definition set_remove (x : G) (s : list G) : list G := filter (fun y => negb (eqb y x)) s.

(** [neighbor_lists.entry(gene).or_insert_with(HashSet::new).extend([a, b])]
    (src/operators/crossover.rs:349-352) *)
Fixpoint nmap_extend (m : nmap) (g a b : G) : nmap :=
  match m with
  | [] => [(g, set_insert b (set_insert a []))]
  | (h, s) :: t => if eqb h g then (h, set_insert b (set_insert a s)) :: t
                   else (h, s) :: nmap_extend t g a b
  end.

(** [neighbor_lists[&gene]]: panics when the key is missing *)
Fixpoint nmap_get (m : nmap) (g : G) : M (list G) :=
  match m with
  | [] => Fail Panic
  | (h, s) :: t => if eqb h g then Ret s else nmap_get t g
  end.

(** src/operators/crossover.rs:341-347 (gene, [prev, next]) for every position *)
Definition neighbors_of (genome : list G) (n : nat) : M (list (G * (G * G))) :=
  mapM (fun i =>
    gene <- idx genome i ;;
    prev <- idx genome (if negb (i =? 0) then i - 1 else n - 1) ;;
    nxt <- idx genome (if negb (i + 1 =? n) then i + 1 else 0) ;;
    Ret (gene, (prev, nxt))) (seq 0 (length genome)).

(** src/operators/crossover.rs:337-353 *)
Definition build_neighbors (p1 p2 : list G) : M nmap :=
  l1 <- neighbors_of p1 (length p1) ;;
  l2 <- neighbors_of p2 (length p1) ;;
  Ret (fold_left (fun m e => nmap_extend m (fst e) (fst (snd e)) (snd (snd e))) (l1 ++ l2) []).

(** [Iterator::min_by_key]: the first element with the smallest key *)
Fixpoint min_by_key (l : list (G * nat)) : option (G * nat) :=
  match l with
  | [] => None
  | (g, k) :: t =>
      match min_by_key t with
      | None => Some (g, k)
      | Some (g', k') => if k' <? k then Some (g', k') else Some (g, k)
      end
  end.

(** src/operators/crossover.rs:368-381 the selection of the next gene.  The
    HashSet is iterated in an unspecified order: any permutation of it. *)
Definition edge_next (p1 : list G) (m : nmap) (visited : list G) (current : G) : M G :=
  s <- nmap_get m current ;;
  order <- pick_from (perms s) ;;
  let cands := filter (fun g => negb (mem eqb g visited)) order in
  keyed <- mapM (fun g => ns <- nmap_get m g ;; Ret (g, length ns)) cands ;;
  match min_by_key keyed with
  | Some (g, _) => Ret g
  | None => unwrap (first_unvisited p1 visited)
  end.

(** src/operators/crossover.rs:359-384 the ERX loop *)
Fixpoint erx_loop (p1 : list G) (k : nat) (m : nmap) (visited : list G) (current : G) : M (list G) :=
  match k with
  | O => Ret []
  | S k' =>
      let visited' := current :: visited in
      let m' := map (fun e => (fst e, set_remove current (snd e))) m in
      nx <- edge_next p1 m' visited' current ;;
      rest <- erx_loop p1 k' m' visited' nx ;;
      Ret (nx :: rest)
  end.

(** src/operators/crossover.rs:326-386 edge_recombination_crossover *)
Definition edge_recombination_crossover (p1 p2 : list G) (pivot : G) : M (list G) :=
  _ <- massert (length p1 =? length p2) ;;
  let n := length p1 in
  if n <? 2 then Ret p1
  else
    m <- build_neighbors p1 p2 ;;
    rest <- erx_loop p1 (n - 1) m [] pivot ;;
    Ret (pivot :: rest).

(** src/operators/crossover.rs:441-445 the [while let] loop of PMX *)
Fixpoint pmx_resolve (fuel : nat) (start stop : list G) (gene : G) : M G :=
  match fuel with
  | O => Fail NoFuel
  | S f =>
      match find_position gene start with
      | None => Ret gene
      | Some pos => g <- idx stop pos ;; pmx_resolve f start stop g
      end
  end.

(** [Range::contains] *)
Definition in_range (a b i : nat) : bool := (a <=? i) && (i <? b).

(** src/operators/crossover.rs:418-450 partially_mapped_crossover; [fuel] bounds
    the iterations of each inner [while let]. *)
Definition partially_mapped_crossover (fuel : nat) (p1 p2 : list G) (range : nat * nat) : M (list G) :=
  _ <- massert (length p1 =? length p2) ;;
  let n := length p1 in
  if n <? 2 then Ret p1
  else
    let '(a, b) := range in
    g0 <- idx p1 0 ;;
    seg <- slice p1 a b ;;
    offspring <- copy_range (repeat g0 n) a b seg ;;
    start <- slice p1 a b ;;
    stop <- slice p2 a b ;;
    mapM (fun i =>
      if negb (in_range a b i) then g <- idx p2 i ;; pmx_resolve fuel start stop g
      else idx offspring i) (seq 0 (length offspring)).

(** src/operators/crossover.rs:504-516 the [while] loop of OX *)
Fixpoint ox_loop (fuel : nat) (p2 : list G) (n a b : nat) (genome : list G) (index1 index2 : nat) : M (list G) :=
  match fuel with
  | O => Fail NoFuel
  | S f =>
      if index1 =? a then Ret genome
      else
        seg <- slice genome a b ;;
        g <- idx p2 index2 ;;
        let index2' := if index2 + 1 =? n then 0 else index2 + 1 in
        if negb (mem eqb g seg) then
          genome' <- set genome index1 g ;;
          let index1' := if index1 + 1 =? n then 0 else index1 + 1 in
          ox_loop f p2 n a b genome' index1' index2'
        else ox_loop f p2 n a b genome index1 index2'
  end.

(** src/operators/crossover.rs:482-519 order_crossover; [fuel] bounds the
    iterations of the [while] loop. *)
Definition order_crossover (fuel : nat) (p1 p2 : list G) (range : nat * nat) : M (list G) :=
  _ <- massert (length p1 =? length p2) ;;
  let n := length p1 in
  if n <? 2 then Ret p1
  else
    let '(a, b) := range in
    g0 <- idx p1 0 ;;
    seg <- slice p1 a b ;;
    genome <- copy_range (repeat g0 n) a b seg ;;
    let index1 := if negb (b =? n) then b else 0 in
    ox_loop fuel p2 n a b genome index1 index1.

(** src/operators/crossover.rs:571-586 the inner [while] loop of CX: follow one
    cycle from [index]; state is (offspring, visited). *)
Fixpoint cx_cycle (fuel : nat) (p1 p2 : list G) (first_parent : bool)
    (offspring : list G) (visited : list bool) (index : nat) : M (list G * list bool) :=
  match fuel with
  | O => Fail NoFuel
  | S f =>
      v <- idx visited index ;;
      if v then Ret (offspring, visited)
      else
        visited' <- set visited index true ;;
        g <- (if first_parent then idx p1 index else idx p2 index) ;;
        offspring' <- set offspring index g ;;
        index' <- (if first_parent then unwrap (find_position g p2) else unwrap (find_position g p1)) ;;
        cx_cycle f p1 p2 first_parent offspring' visited' index'
  end.

(** [visited.iter().position(|&x| !x)] *)
Fixpoint first_false (l : list bool) : option nat :=
  match l with
  | [] => None
  | b :: t => if negb b then Some 0 else match first_false t with Some i => Some (S i) | None => None end
  end.

(** src/operators/crossover.rs:567-597 the outer [while] loop of CX *)
Fixpoint cx_loop (fuel : nat) (p1 p2 : list G) (first_parent : bool)
    (offspring : list G) (visited : list bool) (cycle_start : nat) : M (list G) :=
  match fuel with
  | O => Fail NoFuel
  | S f =>
      if cycle_start <? length p1 then
        '(offspring', visited') <- cx_cycle (S (length p1)) p1 p2 first_parent offspring visited cycle_start ;;
        match first_false visited' with
        | Some next_start => cx_loop f p1 p2 (negb first_parent) offspring' visited' next_start
        | None => Ret offspring'
        end
      else Ret offspring
  end.

(** src/operators/crossover.rs:550-600 cycle_crossover.  Both loops mark one
    more position visited per iteration, so the fuel [n + 1] is proved
    sufficient for all inputs. *)
Definition cycle_crossover (p1 p2 : list G) : M (list G) :=
  _ <- massert (length p1 =? length p2) ;;
  let n := length p1 in
  if n <? 2 then Ret p1
  else
    g0 <- idx p1 0 ;;
    cx_loop (S n) p1 p2 true (repeat g0 n) (repeat false n) 0.

(** src/operators/crossover.rs:632-643 single_point_crossover *)
Definition single_point_crossover (p1 p2 : list G) (point : nat) : M (list G) :=
  _ <- massert (length p1 =? length p2) ;;
  if point <? length p2 then
    tail <- slice p2 point (length p2) ;;
    copy_range p1 point (length p1) tail
  else Ret p1.

(** src/operators/crossover.rs:12-51 CrossoverStrategy *)
Inductive crossover_strategy :=
| GeneralizedPartition2 | SequentialConstructive | EdgeRecombination
| PartiallyMapped | Order | Cycle | SinglePoint.

(** src/operators/crossover.rs:68-102 CrossoverStrategy::crossover; [fuel]
    bounds the loops of PMX and OX. *)
Definition crossover (fuel : nat) (s : crossover_strategy) (p1 p2 : list G) : M (list G) :=
  match s with
  | GeneralizedPartition2 =>
      generalized_partition_2_crossover p1 p2
        (fun (_ : unit) _ partitions => i <- gen_range 0 (length partitions) ;; Ret (i, tt)) tt
  | SequentialConstructive =>
      o <- choose p1 ;; pivot <- unwrap o ;; sequential_constructive_crossover p1 p2 pivot
  | EdgeRecombination =>
      o <- choose p1 ;; pivot <- unwrap o ;; edge_recombination_crossover p1 p2 pivot
  | PartiallyMapped =>
      range <- random_range (length p1) ;; partially_mapped_crossover fuel p1 p2 range
  | Order =>
      range <- random_range (length p1) ;; order_crossover fuel p1 p2 range
  | Cycle => cycle_crossover p1 p2
  | SinglePoint =>
      point <- gen_range 0 (length p1) ;; single_point_crossover p1 p2 point
  end.

End Crossover.
