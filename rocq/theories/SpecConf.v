(** Specification of the configuration: which values a setting accepts, and what a history of calls leaves behind. *)
From Coq Require Import List ZArith QArith String.
From Verif Require Import MEst MConf.
Import ListNotations.
Local Open Scope string_scope.

(** the three settings, their defaults and what they accept *)
Definition setting_names : list string := ["base"; "statistical_test_method"; "statistical_test_n_tests"].
Definition default_of (k : string) (v : pyval) : Prop :=
  (k = "base" /\ v = PStr "e") \/ (k = "statistical_test_method" /\ v = PStr "permutation_test") \/
  (k = "statistical_test_n_tests" /\ v = PInt 200).
Inductive accepts : string -> pyval -> Prop :=
| acc_base_int z : accepts "base" (PInt z)
| acc_base_bool b : accepts "base" (PBool b)
| acc_base_float q : accepts "base" (PFloat q)
| acc_base_nonfinite : accepts "base" PNonFinite
| acc_base_e : accepts "base" (PStr "e")
| acc_method_p : accepts "statistical_test_method" (PStr "permutation_test")
| acc_method_b : accepts "statistical_test_method" (PStr "bootstrap")
| acc_n_int z : accepts "statistical_test_n_tests" (PInt z)
| acc_n_bool b : accepts "statistical_test_n_tests" (PBool b).

(** units of information and their base *)
Inductive unit_base : string -> pyval -> string -> Prop :=
| ub_2 u : In u ["bit"; "bits"; "shannon"; "shannons"] -> unit_base u (PInt 2) "bit/shannon"
| ub_e u : In u ["nat"; "nats"; "nit"; "nepit"] -> unit_base u (PStr "e") "nat/nit/nepit"
| ub_10 u : In u ["hartley"; "hartleys"; "ban"; "bans"; "dit"; "dits"] -> unit_base u (PInt 10) "hartley/ban/dit".

(** the call [o] gives setting [k] the value [v] *)
Inductive assigns : cop -> string -> pyval -> Prop :=
| as_set k v : accepts k v -> assigns (CSet k v) k v
| as_unit u b n : unit_base (lower u) b n -> assigns (CUnit u) "base" b
| as_reset k v : default_of k v -> assigns CReset k v.

(** value of setting [k] after a history: the last call that assigned it decides, else the default *)
Inductive value_after : list cop -> string -> pyval -> Prop :=
| va_start k v : default_of k v -> value_after [] k v
| va_now h o k v : assigns o k v -> value_after (h ++ [o]) k v
| va_before h o k v : (forall w, ~ assigns o k w) -> value_after h k v -> value_after (h ++ [o]) k v.
