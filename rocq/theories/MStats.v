(** * MStats: model of src/stats.rs.

    The code computes in f64.  The model is written once over a record of
    arithmetic operations, so that the same text can be read in f64 (what the
    code does) and in exact real arithmetic (what the formulas mean). *)
From Coq Require Import List Bool Arith Reals ZArith.
From Verif Require Import Rnd F64.
Import ListNotations.

Record numops (F : Type) := {
  n_zero : F;
  n_add : F -> F -> F;
  n_sub : F -> F -> F;
  n_mul : F -> F -> F;
  n_div : F -> F -> F;
  n_sqrt : F -> F;
  n_ltb : F -> F -> bool;
  n_of_nat : nat -> F
}.
Arguments n_zero {F} _.
Arguments n_add {F} _ _ _.
Arguments n_sub {F} _ _ _.
Arguments n_mul {F} _ _ _.
Arguments n_div {F} _ _ _.
Arguments n_sqrt {F} _ _.
Arguments n_ltb {F} _ _ _.
Arguments n_of_nat {F} _ _.

(** f64 arithmetic, as in the code *)
Definition f64ops : numops f64 := {|
  n_zero := f0; n_add := fadd; n_sub := fsub; n_mul := fmul; n_div := fdiv;
  n_sqrt := fsqrt; n_ltb := flt; n_of_nat := f_of_nat |}.

(** exact real arithmetic *)
Definition Rops : numops R := {|
  n_zero := 0%R; n_add := Rplus; n_sub := Rminus; n_mul := Rmult; n_div := Rdiv;
  n_sqrt := sqrt; n_ltb := fun x y => if Rlt_dec x y then true else false; n_of_nat := INR |}.

Section Stats.
Context {F : Type} (no : numops F).

(** src/stats.rs:33-41 struct Stats *)
Record stats := mkStats {
  s_count : nat;
  s_min : F;
  s_arg_min : nat;
  s_max : F;
  s_arg_max : nat;
  s_avg : F;
  s_sum_squared : F
}.

(** src/stats.rs:32 #[derive(Default)] *)
Definition stats_default : stats :=
  mkStats 0 (n_zero no) 0 (n_zero no) 0 (n_zero no) (n_zero no).

(** src/stats.rs:46-48 *)
Definition st_count (s : stats) : nat := s_count s.
(** src/stats.rs:52-57 *)
Definition st_min (s : stats) : option F := match s_count s with 0 => None | _ => Some (s_min s) end.
(** src/stats.rs:61-66 *)
Definition st_arg_min (s : stats) : option nat := match s_count s with 0 => None | _ => Some (s_arg_min s) end.
(** src/stats.rs:70-75 *)
Definition st_max (s : stats) : option F := match s_count s with 0 => None | _ => Some (s_max s) end.
(** src/stats.rs:79-84 *)
Definition st_arg_max (s : stats) : option nat := match s_count s with 0 => None | _ => Some (s_arg_max s) end.
(** src/stats.rs:88-93 *)
Definition st_avg (s : stats) : option F := match s_count s with 0 => None | _ => Some (s_avg s) end.
(** src/stats.rs:97-103 *)
Definition st_var (s : stats) : option F :=
  match s_count s with
  | 0 => None
  | 1 => Some (n_zero no)
  | c => Some (n_div no (s_sum_squared s) (n_of_nat no (c - 1)))
  end.
(** src/stats.rs:107-109 *)
Definition st_std (s : stats) : option F := option_map (n_sqrt no) (st_var s).

(** src/stats.rs:134-159 record *)
Definition record (s : stats) (sample : F) : stats :=
  if negb (s_count s =? 0) then
    let '(mn, amn) := if n_ltb no sample (s_min s) then (sample, s_count s) else (s_min s, s_arg_min s) in
    let '(mx, amx) := if n_ltb no (s_max s) sample then (sample, s_count s) else (s_max s, s_arg_max s) in
    let count := s_count s + 1 in
    let delta := n_sub no sample (s_avg s) in
    let avg := n_add no (s_avg s) (n_div no delta (n_of_nat no count)) in
    let sum_squared := n_add no (s_sum_squared s) (n_mul no delta (n_sub no sample avg)) in
    mkStats count mn amn mx amx avg sum_squared
  else mkStats 1 sample 0 sample 0 sample (n_zero no).

(** src/stats.rs:222-236 the loop of from_iter over the remaining samples, on
    its seven local variables *)
Fixpoint from_iter_loop (samples : list F) (count : nat) (mn : F) (amn : nat) (mx : F) (amx : nat)
    (avg sum_squared : F) : stats :=
  match samples with
  | [] => mkStats count mn amn mx amx avg sum_squared
  | sample :: rest =>
      let '(mn', amn') := if n_ltb no sample mn then (sample, count) else (mn, amn) in
      let '(mx', amx') := if n_ltb no mx sample then (sample, count) else (mx, amx) in
      let count' := count + 1 in
      let delta := n_sub no sample avg in
      let avg' := n_add no avg (n_div no delta (n_of_nat no count')) in
      let sum_squared' := n_add no sum_squared (n_mul no delta (n_sub no sample avg')) in
      from_iter_loop rest count' mn' amn' mx' amx' avg' sum_squared'
  end.

(** src/stats.rs:207-248 FromIterator *)
Definition from_iter (samples : list F) : stats :=
  match samples with
  | [] => stats_default
  | first :: rest => from_iter_loop rest 1 first 0 first 0 first (n_zero no)
  end.

(** src/stats.rs:281-283 struct PopulatedStats *)
Record populated := mkPopulated { p_stats : stats }.

(** src/stats.rs:198-204 snapshot *)
Definition snapshot (s : stats) : option populated :=
  if negb (s_count s =? 0) then Some (mkPopulated s) else None.

(** src/stats.rs:379-390 TryFrom<Stats>; [None] is [Err(())] *)
Definition populated_try_from (s : stats) : option populated :=
  if negb (s_count s =? 0) then Some (mkPopulated s) else None.

(** src/stats.rs:287-336 accessors of PopulatedStats *)
Definition ps_count (p : populated) : nat := s_count (p_stats p).
Definition ps_min (p : populated) : F := s_min (p_stats p).
Definition ps_arg_min (p : populated) : nat := s_arg_min (p_stats p).
Definition ps_max (p : populated) : F := s_max (p_stats p).
Definition ps_arg_max (p : populated) : nat := s_arg_max (p_stats p).
Definition ps_avg (p : populated) : F := s_avg (p_stats p).
Definition ps_var (p : populated) : F :=
  if 1 <? s_count (p_stats p)
  then n_div no (s_sum_squared (p_stats p)) (n_of_nat no (s_count (p_stats p) - 1))
  else n_zero no.
Definition ps_std (p : populated) : F := n_sqrt no (ps_var p).

(** src/stats.rs:352-355 set_arg_min *)
Definition set_arg_min (p : populated) (i : nat) : M populated :=
  _ <- massert (i <? ps_count p) ;;
  let s := p_stats p in
  Ret (mkPopulated (mkStats (s_count s) (s_min s) i (s_max s) (s_arg_max s) (s_avg s) (s_sum_squared s))).

(** src/stats.rs:373-376 set_arg_max *)
Definition set_arg_max (p : populated) (i : nat) : M populated :=
  _ <- massert (i <? ps_count p) ;;
  let s := p_stats p in
  Ret (mkPopulated (mkStats (s_count s) (s_min s) (s_arg_min s) (s_max s) i (s_avg s) (s_sum_squared s))).

End Stats.
Arguments stats : clear implicits.
Arguments populated : clear implicits.
