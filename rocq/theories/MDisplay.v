(** * MDisplay: model of the Display implementations of src/stats.rs.

    The text written is a [string]; the sink it is written to is assumed not to
    fail.  How std writes an f64 is a parameter [show]: its first argument is the
    precision of the placeholder ([{}] has none, [{:.p$}] has [p]).  A count is
    written in decimal. *)
From Coq Require Import List Bool Arith String Decimal DecimalString.
From Verif Require Import F64 MStats.
Open Scope string_scope.

(** The options of a placeholder such as [{:*>+12.3}], of which the code asks only
    for the precision *)
Record fmt_spec := mkSpec {
  fs_fill : Ascii.ascii;
  fs_align : option nat;
  fs_plus : bool;
  fs_alternate : bool;
  fs_zero : bool;
  fs_width : option nat;
  fs_precision : option nat
}.

(** Display of usize *)
Definition show_count (n : nat) : string := NilEmpty.string_of_uint (Nat.to_uint n).

Section Display.
Context (show : option nat -> f64 -> string).

(** src/stats.rs:392-416 Display for PopulatedStats.  [write!] hands the placeholders
    options of their own, so those of [f] other than the precision are not used. *)
Definition display_populated (f : fmt_spec) (s : populated f64) : string :=
  match fs_precision f with
  | Some p =>
      "Samples: " ++ show_count (ps_count s) ++ "; Min: " ++ show (Some p) (ps_min s) ++ "; Max: " ++ show (Some p) (ps_max s) ++
      "; Average: " ++ show (Some p) (ps_avg s) ++ "; Variance: " ++ show (Some p) (ps_var f64ops s) ++
      "; STD: " ++ show (Some p) (ps_std f64ops s)
  | None =>
      "Samples: " ++ show_count (ps_count s) ++ "; Min: " ++ show None (ps_min s) ++ "; Max: " ++ show None (ps_max s) ++
      "; Average: " ++ show None (ps_avg s) ++ "; Variance: " ++ show None (ps_var f64ops s) ++
      "; STD: " ++ show None (ps_std f64ops s)
  end.

(** src/stats.rs:250-254 Display for Stats *)
Definition display_stats (f : fmt_spec) (s : stats f64) : string :=
  match snapshot s with Some p => display_populated f p | None => "" end.
End Display.
