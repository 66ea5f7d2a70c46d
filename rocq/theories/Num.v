(** The numeric type the expression trees are built over. *)
From Coq Require Import ZArith.

(** Operations the library applies to its numeric_type
    (/repo/viennamath/forwards.h line 43: double by default).
    The arithmetic fields are what BinaryOperation::apply uses
    (/repo/viennamath/compiletime/binary_op_tags.hpp lines 36-101), the functions are the
    libm calls of /repo/viennamath/compiletime/unary_op_tags.hpp lines 53-166,
    [n_eq], [n_le], [n_ge] the comparisons ==, <=, >= used in
    /repo/viennamath/manipulation/detail/binary_operations.hpp and
    /repo/viennamath/runtime/constant.hpp line 117, [n_of_Z] the integer literals and
    compile-time constants converted to the numeric type, [n_ln10] the value ::log(10.0)
    of /repo/viennamath/manipulation/detail/unary_operations.hpp line 570.
    Simplified: nothing is assumed about the operations here; instances fix them. *)
Record num : Type := mk_num {
  carrier :> Type;
  n_of_Z : Z -> carrier;
  n_ln10 : carrier;
  n_add : carrier -> carrier -> carrier;
  n_sub : carrier -> carrier -> carrier;
  n_mul : carrier -> carrier -> carrier;
  n_div : carrier -> carrier -> carrier;
  n_eq : carrier -> carrier -> bool;
  n_le : carrier -> carrier -> bool;
  n_ge : carrier -> carrier -> bool;
  n_exp : carrier -> carrier;
  n_sin : carrier -> carrier;
  n_cos : carrier -> carrier;
  n_tan : carrier -> carrier;
  n_fabs : carrier -> carrier;
  n_sqrt : carrier -> carrier;
  n_log : carrier -> carrier;
  n_log10 : carrier -> carrier
}.
