(** * ExM: the concrete model of the examples. *)
From Coq Require Import List Bool Arith NArith ZArith.
From Verif Require Import Rnd F64 MStats MPopulation MSelection MModel ExF.
Import ListNotations.

(** Numbers: crossover adds, mutation counts up, nothing is random. *)
Definition ex_model : model nat unit := {|
  m_crossover := fun _ a b => Ret (a + b);
  m_mutate := fun _ a => Ret (S a);
  m_improve := default_improve;
  m_evaluate := fun _ a => Ret a;
  m_can_survive := default_can_survive ex_io;
  m_pre_generation := default_pre_generation |}.

(** The same with mutation making everything invalid *)
Definition ex_model0 : model nat unit := {|
  m_crossover := fun _ a b => Ret (a + b);
  m_mutate := fun _ a => Ret 0;
  m_improve := default_improve;
  m_evaluate := fun _ a => Ret a;
  m_can_survive := default_can_survive ex_io;
  m_pre_generation := default_pre_generation |}.

(** The same with a mutation that panics *)
Definition ex_model_pm : model nat unit := {|
  m_crossover := fun _ a b => Ret (a + b);
  m_mutate := fun _ a => Fail Panic;
  m_improve := default_improve;
  m_evaluate := fun _ a => Ret a;
  m_can_survive := default_can_survive ex_io;
  m_pre_generation := default_pre_generation |}.
