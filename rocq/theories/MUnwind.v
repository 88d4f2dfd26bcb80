(** * MUnwind: what a panic in [configure] leaves behind when it is caught.
    The other model files forget the state when a panic occurs; here the
    assignments of [configure] are done one after the other and the panic unwinds
    from the one in progress. *)
From Coq Require Import List Bool Arith.
From Verif Require Import Rnd F64 MStats MPopulation MSelection MModel MAlgorithms.
Import ListNotations.

(** [std::panic::catch_unwind] *)
Fixpoint catch {A} (m : M A) : M (A + err) :=
  match m with
  | Ret a => Ret (inl a)
  | Fail e => Ret (inr e)
  | Draw n k => Draw n (fun i => catch (k i))
  | Pick n k => Pick n (fun i => catch (k i))
  end.

(** The statements of a [&mut self] method, each changing the state or failing; the
    result is the state afterwards and the panic, if any, that ended the method. *)
Fixpoint unwinding {S0} (steps : list (S0 -> M S0)) (s : S0) : M (S0 * option err) :=
  match steps with
  | [] => Ret (s, None)
  | step :: rest =>
      r <- catch (step s) ;;
      match r with
      | inl s' => unwinding rest s'
      | inr e => Ret (s, Some e)
      end
  end.

Section Configure.
Context {I MS : Type}.

(** src/algorithms/ga.rs:155-163 configure, statement by statement *)
Definition ga_configure_steps (q : ga_params) : list (ga_state I MS -> M (ga_state I MS)) :=
  [ (fun s => _ <- ga_validate q ;; Ret s);
    (fun s => Ret (mkGa (ga_model s) (ga_population_size q) (ga_elite_size s) (ga_breeding s)));
    (fun s => elite <- interpolate_usize 0 (ga_population_size q) (ga_elitism_rate q) ;;
              Ret (mkGa (ga_model s) (ga_size s) elite (ga_breeding s)));
    (fun s => Ret (mkGa (ga_model s) (ga_size s) (ga_elite_size s)
                     (mkBreeding (ga_crossover_rate q) (mutation_rate (ga_breeding s)) (parent_selector (ga_breeding s)))));
    (fun s => Ret (mkGa (ga_model s) (ga_size s) (ga_elite_size s)
                     (mkBreeding (crossover_rate (ga_breeding s)) (ga_mutation_rate q) (parent_selector (ga_breeding s)))));
    (fun s => sel <- create_selector (ga_selection_strategy q) ;;
              Ret (mkGa (ga_model s) (ga_size s) (ga_elite_size s)
                     (mkBreeding (crossover_rate (ga_breeding s)) (mutation_rate (ga_breeding s)) sel))) ].

(** src/algorithms/aga.rs:174-183 configure, statement by statement *)
Definition aga_configure_steps (q : aga_params) : list (aga_state I MS -> M (aga_state I MS)) :=
  [ (fun s => _ <- aga_validate q ;; Ret s);
    (fun s => Ret (mkAga (aga_model s) (aga_population_size q) (aga_elite_size s) (aga_interval s) (aga_crossover_range s)
                     (aga_mutation_range s) (aga_breeding s) (aga_reference_std s)));
    (fun s => elite <- interpolate_usize 0 (aga_population_size q) (aga_elitism_rate q) ;;
              Ret (mkAga (aga_model s) (aga_size s) elite (aga_interval s) (aga_crossover_range s)
                     (aga_mutation_range s) (aga_breeding s) (aga_reference_std s)));
    (fun s => Ret (mkAga (aga_model s) (aga_size s) (aga_elite_size s) (aga_parameter_adjustment_interval q) (aga_crossover_range s)
                     (aga_mutation_range s) (aga_breeding s) (aga_reference_std s)));
    (fun s => Ret (mkAga (aga_model s) (aga_size s) (aga_elite_size s) (aga_interval s) (aga_crossover_rate_range q)
                     (aga_mutation_range s) (aga_breeding s) (aga_reference_std s)));
    (fun s => Ret (mkAga (aga_model s) (aga_size s) (aga_elite_size s) (aga_interval s) (aga_crossover_range s)
                     (aga_mutation_rate_range q) (aga_breeding s) (aga_reference_std s)));
    (fun s => sel <- create_selector (aga_selection_strategy q) ;;
              Ret (mkAga (aga_model s) (aga_size s) (aga_elite_size s) (aga_interval s) (aga_crossover_range s) (aga_mutation_range s)
                     (mkBreeding (crossover_rate (aga_breeding s)) (mutation_rate (aga_breeding s)) sel) (aga_reference_std s))) ].
End Configure.
