(** * Properties_Display: theorems about the Display implementations of src/stats.rs (C112). *)
From Coq Require Import List Bool Arith String Ascii.
From Verif Require Import F64 MStats MDisplay SpecN PDisplay.
Import ListNotations.
Open Scope string_scope.

(** C112: the text of statistics with samples has six fields separated by semicolons,
    the numbers being written as the precision asks. *)
Theorem C112_fields :
  forall (show : option nat -> f64 -> string), plain_show show ->
  forall (f : fmt_spec) (s : stats f64) (p : populated f64), snapshot s = Some p ->
  fields ";" (display_stats show f s) =
  ["Samples: " ++ show_count (ps_count p); " Min: " ++ show (fs_precision f) (ps_min p); " Max: " ++ show (fs_precision f) (ps_max p);
   " Average: " ++ show (fs_precision f) (ps_avg p); " Variance: " ++ show (fs_precision f) (ps_var f64ops p);
   " STD: " ++ show (fs_precision f) (ps_std f64ops p)].
Proof. exact stats_fields. Qed.
Print Assumptions C112_fields.
(** Nothing is written exactly when there are no samples. *)
Theorem C112_empty :
  forall (show : option nat -> f64 -> string) (f : fmt_spec) (s : stats f64), display_stats show f s = "" <-> st_count s = 0.
Proof. exact display_empty. Qed.
Print Assumptions C112_empty.
(** A snapshot is written as the statistics are. *)
Theorem C112_snapshot :
  forall (show : option nat -> f64 -> string) (f : fmt_spec) (s : stats f64) (p : populated f64), snapshot s = Some p ->
  display_populated show f p = display_stats show f s.
Proof. exact display_snapshot. Qed.
Print Assumptions C112_snapshot.
(** Of the options only the precision counts: no width, fill, alignment or sign. *)
Theorem C112_options :
  forall (show : option nat -> f64 -> string) (f g : fmt_spec) (s : stats f64),
  fs_precision f = fs_precision g -> display_stats show f s = display_stats show g s.
Proof. exact display_options. Qed.
Print Assumptions C112_options.
(** Equal texts come from equal counts and from numbers that are written the same ... *)
Theorem C112_text_determines :
  forall (show : option nat -> f64 -> string), plain_show show ->
  forall (f : fmt_spec) (s t : stats f64) (p q : populated f64), snapshot s = Some p -> snapshot t = Some q ->
  display_stats show f s = display_stats show f t ->
  st_count s = st_count t /\ show (fs_precision f) (ps_min p) = show (fs_precision f) (ps_min q) /\
  show (fs_precision f) (ps_max p) = show (fs_precision f) (ps_max q) /\ show (fs_precision f) (ps_avg p) = show (fs_precision f) (ps_avg q) /\
  show (fs_precision f) (ps_var f64ops p) = show (fs_precision f) (ps_var f64ops q) /\
  show (fs_precision f) (ps_std f64ops p) = show (fs_precision f) (ps_std f64ops q).
Proof. exact display_determines. Qed.
Print Assumptions C112_text_determines.
(** ... and without precision the text determines all of them. *)
Theorem C112_text_exact :
  forall (show : option nat -> f64 -> string), plain_show show ->
  forall (f : fmt_spec) (s t : stats f64), exact_show show -> fs_precision f = None ->
  display_stats show f s = display_stats show f t ->
  st_count s = st_count t /\ st_min s = st_min t /\ st_max s = st_max t /\ st_avg s = st_avg t /\
  st_var f64ops s = st_var f64ops t /\ st_std f64ops s = st_std f64ops t.
Proof. exact display_exact. Qed.
Print Assumptions C112_text_exact.
(** The doc-test of snapshot (src/stats.rs:171-197) *)
Example C112_example :
  let f := mkSpec " " None false false false None (Some 2) in
  plain_show fixed_show /\ plain_show raw_show /\ exact_show raw_show /\
  display_stats fixed_show f (from_iter f64ops [f_of_nat 3; f_of_nat 5]) =
    "Samples: 2; Min: 3.00; Max: 5.00; Average: 4.00; Variance: 2.00; STD: 1.41" /\
  display_stats fixed_show f (from_iter f64ops [f_of_nat 3; f_of_nat 5; f_of_nat 2; f_of_nat 4]) =
    "Samples: 4; Min: 2.00; Max: 5.00; Average: 3.50; Variance: 1.67; STD: 1.29" /\
  display_stats fixed_show f (from_iter f64ops [f_of_nat 3; f_of_nat 5; f_of_nat 2; f_of_nat 4; f_of_nat 1]) =
    "Samples: 5; Min: 1.00; Max: 5.00; Average: 3.00; Variance: 2.50; STD: 1.58".
Proof. exact c112_example. Qed.
