# Formal model of audi in Rocq (Coq 8.16.1)

This file states what is modelled, how each property of `properties.jsonl`
is proved, and what has to be trusted.  It is written before the proofs and
kept current.

## 1. Overall shape

| layer | files | content |
|---|---|---|
| coefficients | `Ops.v` | operations record `Ops K`, field laws `FieldLaws`, instances `Qc`, `R`, IEEE `float` |
| polynomials | `Syms.v`, `Poly.v` | reference model of the obake polynomials used by audi |
| gdual | `Gdual.v`, `Functions.v` | function-by-function model of `gdual.hpp`, `functions.hpp`, `functions_from_d.hpp` |
| vectorized | `Vectorized.v` | `vectorized.hpp`, `overloads_vectorized.hpp`, the vectorized `abs` |
| Taylor maps | `InvertMap.v` | `invert_map.hpp` |
| polynomial bounds | `Bounding.v` | `taylor_model_bounding.hpp`, `matmul`/`transpose` of `taylor_model_utilities.hpp`, `get_bounds` of `taylor_model.hpp` |
| Taylor models | `Interval.v`, `TaylorModel.v`, `TMFunctions.v` | boost interval arithmetic, `taylor_model.hpp`, `taylor_model_functions.hpp` |
| serialization | `Serial.v` | `serialize` of `gdual` and `vectorized`, as token streams (model and proofs) |
| text output | `Io.v`, `SpecIo.v`, `IoProofs.v` | `stream` for containers, the table printer of `io.hpp`, the vectorized, variable map and Taylor model printers |
| Python | `PyBind.v`, `PyProofs.v`, `PyFun.v`, `SpecPy.v`, `PyFunProofs.v`, `PySamples.v`, `PyTM.v`, `SpecPyTM.v`, `PyTMProofs.v`, `PyTMAffine.v`, `PyTMMore.v`, `PyTMTypes.v`, `PyTMSamples.v`, `PyVec.v`, `SpecPyVec.v`, `PyVecProofs.v`, `PyVecMore.v`, `PyVecDeriv.v`, `PyVecCalc.v`, `PyScript.v`, `SpecPyScript.v`, `PyScriptProofs.v`, `PyNewton.v`, `ScriptSamples.v`, `PyWhile.v`, `SpecPyWhile.v`, `PyWhileProofs.v` | the dictionary conversion, `evaluate`, the vectorized type caster and pickling of `pyaudi`; operators, functions and methods of Python expressions over int, float and `gdual_double`, over `taylor_model`, and over `gdual_vdouble`; scripts of assignments, `partial`, `constant_cf`, conditionals, `for` and `while` loops over `gdual_double` |
| complex | `Cplx.v`, `CUni.v`, `CFun.v`, `CFun2.v`, `CTaylor.v`, `CTayUnique.v`, `CTayFun.v`, `SpecCpx.v`, `CTayProofs.v`, `CTayIdent.v`, `Gmap.v`, `CEmbed.v`, `QuadAlg.v`, `CQuad.v`, `CProg.v`, `CQuadId.v`, `CEqual.v`, `CPrincipal.v`, `CSamples.v`, `SpecConj.v`, `CConj.v` | complex coefficients: expansions of the complex functions from their derivatives along rays, the Taylor relation over complex displacements, the embedding of the real gduals and conjugation (`CConj.v`); quadratures over any field (`QuadAlg.v`), hence `atanh_d` and `atan_d` |
| doubles | `SpecDbl.v`, `StoredMul.v`, `StoredCalc.v`, `DblProofs.v`, `DblSamples.v` | IEEE 754 binary64 (Flocq) as coefficient type; what each coefficient of a result is, without laws of arithmetic and with rounding |
| elementary functions on R | `ElemR.v` | the real functions behind `Elem` (asinh, acosh, erf, Bernoulli numbers ...) |
| vocabulary | `Spec.v`, `SpecTaylor.v`, `SpecVec.v`, `SpecMaps.v`, `SpecBounding.v`, `SpecTM.v` | definitions used by the property statements |
| lemmas on the core | `SymsFacts`, `PolyFacts`, `Sem`, `Den`, `GdualFacts`, `FunStruct`, `CoefFacts`, `CoreProofs`, `CalcProofs`, `ValueProofs`, `MiscProofs` | C01-C08, C19-C26 |
| lemmas on functions | `FunAlg`, `Uni`, `UniFun`, `UniFun2`, `Taylor`, `TayUnique`, `TayFun`, `TayQuad`, `TayProofs`, `TayIdent`, `EqualProg`, `TaySubs`, `TayDeriv`, `TrigWrap`, `QuadLarge`, `FunRange`, `Smooth`, `SmoothFun`, `PyDeriv`, `DerivSamples`, `DictDeriv`, `DictSamples`, `PyIntegral` | C09-C18, C19, C21, C22, C54 |
| lemmas on vectors | `CompRel`, `VecProofs`, `VecNumber` | C27-C29 |
| lemmas on maps | `Compose`, `MapProofs`, `InvertSem`, `InvertProofs`, `InvertMain`, `InvertFinal` | C30-C31 |
| lemmas on bounds | `BinomProofs`, `BoundPoly`, `TensorProofs`, `BernProofs`, `CycleProofs`, `ShiftProofs`, `BoundsMain`, `BoundsFinal` | C32-C36 |
| lemmas on Taylor models | `TMMaps`, `TMArith`, `TMMul`, `Lagrange`, `TMTaylor`, `TMBounds`, `TMPow`, `TMMisc`, `TMClass`, `TMGlue`, `TMInterval`, `TMPoly`, `TMAtan`, `TMRem` | C37-C45, enclosures |
| counterexamples on Taylor models | `TMSamples`, `TMFlat`, `TMExact`, `TMRefute`-`TMRefute6`, `TMProbe`, `TMRoots`, `TMSwap`, `TMInst` | C37-C45, failures; interval functions for the examples |
| examples | `Samples`, `CalcSamples`, `VecSamples`, `MapSamples`, `BoundSamples`, `BoundRefute` | concrete gduals used by examples and refutations |
| properties | `Properties_Core`, `Properties_Calculus`, `Properties_Functions`, `Properties_Analysis`, `Properties_LargeOrders`, `Properties_Vectorized`, `Properties_Maps`, `Properties_Bounding`, `Properties_TM`, `Properties_TMPoly`, `Properties_Serial`, `Properties_Io`, `Properties_Doubles`, `Properties_Complex`, `Properties_PyFun`, `Properties_PyTM`, `Properties_PyVec`, `Properties_Deriv`, `Properties_PyScript` | nothing but the property theorems, `Print Assumptions` and examples |

The model is parametric in the coefficient operations, so that

* structural properties (truncation, order, symbols) are proved **without any
  law** on the coefficients and hold for IEEE doubles too;
* algebraic properties are proved for every field;
* analytic properties (Taylor expansions, enclosures) are proved for `R`;
* the model runs (`vm_compute`) over `Qc` and over IEEE doubles
  (`PrimFloat`), which is used for examples and refutations.

## 2. Semantic backbone

A polynomial is a sorted list of symbol names with a list of
(exponent vector, coefficient) pairs.  Its meaning is the linear functional
`L p w = sum of c * w(monomial)`, from which coefficient extraction and
evaluation are special cases.  `p ==[n] q` ("equal up to total degree n") is
a setoid congruence and a commutative ring, on which the `ring` tactic works;
all nilpotent-series arguments are done there.  The analytic specification is

    Taylor n f d  :=  exists C and delta > 0, for all h with |h| < delta,
                      |f h - eval d h| <= C * |h|^(n+1)

which determines the coefficients of d up to degree n uniquely (proved).

The Taylor-model specification is

    encloses D tm f  :=  for all x in D, x is in the domain of tm and
                         f x - eval tpol (x - exp) in rem
    represents D tm f := tm is well formed and encloses D tm f

where well formed says that the polynomial is stored properly, that domain and
expansion point are given for exactly its variables, and that each expansion
point lies in its interval.  `encloses` is false of many operations of audi;
the side conditions under which it holds are part of the `_partial` theorems
and each of them that matters has a `_refuted` theorem:

* a product is taken to be 0 when one polynomial is 0 (whatever its
  remainder) and when both orders are 0, and its truncated terms are forgotten
  when none of their coefficients exceeds 1e-16;
* number - A and -A keep the remainder, interval - A keeps the sign of the
  polynomial, number / A does not scale the remainder; interval * A and
  interval / A throw on models with variables;
* exp, sin, cos, sinh, cosh, log, sqrt and 1 / A lose the remainder of their
  argument at every positive order, and terms truncated from the powers of a
  polynomial of degree two at every order from 2 on.  They are right for
  `simple` models: of degree at most one, and exact or of order 0;
* tan, tanh, asinh, asin, acos and atan give wrong enclosures on constants of
  order 0; acosh and atanh throw on them.  atan is right for exact linear
  models of positive order whose polynomial has no constant term.

Products fail when the orders add up to 63 (the 64-bit binomial coefficients
behind the bounds overflow).  Products, 1 / A and the functions fail under
iteration orders other than that of the symbols.

## 3. Plan per property

| id | plan |
|---|---|
| C01-C03 | induction over an expression language covering the public API, no coefficient laws |
| C04-C08 | `L`-functional, setoid ring; mixed-order associativity and division are expected to be false when orders differ: refute with witness, prove under the exact side condition |
| C09-C18 | `Taylor n` closed under every operation; composition lemma for power series with Lagrange bound; Bernoulli identity by formal power series; atan limited by 32-bit binomials: refute beyond, prove below |
| C17 | fundamental theorem of calculus along coordinate axes in formal form |
| C19 | uniqueness of Taylor coefficients, Taylor's theorem in several variables by induction on the order (mean value along each coordinate), iterated `partial` |
| C20-C26 | direct proofs on the model |
| C27-C29 | list induction; logical relation (component projection commutes with every operation) |
| C30-C31 | substitution lemma, Picard induction on the degree |
| C32-C36 | list induction, binomial theorem, Bernstein partition of unity; hash iteration order is an oracle permutation |
| C37-C44 | interval inclusion; `_refuted` theorems where the code drops a sign, a remainder or a scalar |
| C45 | loop invariant with explicit 64-bit range |
| C49 | per-coefficient description of each operation for any arithmetic, then the standard model of rounding errors (Flocq) |
| C50 | the argument of C09-C18 over complex displacements; a homomorphism lemma for real data and for conjugate data |
| C51 | induction on the expression, using the expansions of C09-C18; equal functions have equal expansions |
| C52 | the same induction with the polynomials of C40-C43 (`Properties_TMPoly`) and, for the affine expressions, the enclosures of C38-C40 |
| C53 | the same induction with the component relation of C29; refutations at the two steps where components differ; derivatives and integrals from C54 |
| C54 | every program agrees near the point with an expression of a small language closed under differentiation (`Smooth.v`, `SmoothFun.v`), so its derivatives exist and it can be integrated; then C19 and C21 |
| C55 | an invariant over the statements: every name holds a constant or the Taylor polynomial, up to the order tracked by `order_of`, of a function that is smooth in the sense of C54; Newton's method is a case; while loops by induction on the run in real arithmetic |
| C46 | token-stream model of the archive; partial (the archive library itself is not modelled) |

## 4. Trusted base

* Coq kernel, `vm_compute`.
* Axioms, as listed by `Print Assumptions` under every theorem of
  `Properties_*.v`.  The theorems of the core, of the calculus and of vectors
  are closed, or use functional extensionality only.  The theorems over `R`
  use the axioms of the standard library reals
  (`ClassicalDedekindReals.sig_forall_dec`, `sig_not_dec`), functional
  extensionality and `Classical_Prop.classic`.  The examples on doubles use
  the `PrimFloat` primitives.  No axiom is added.
* obake (polynomial arithmetic), boost::interval, boost::math, Eigen and the C
  math library are external: reference semantics or oracles with stated
  contracts.
* Coefficient arithmetic in algebraic/analytic theorems is exact.  C49 relates
  it to double precision for sums, products, scalar multiples, `partial` and
  `integrate`, with Flocq's formalisation of IEEE 754 (definitions and proved
  lemmas; Flocq has no axioms of its own).

## 5. What is modelled, and what is not

* obake: polynomials are a sorted symbol list and a list of terms with
  distinct keys.  Operations keep the stored form (no zero coefficient after
  arithmetic).  The order of terms in obake's hash tables is not modelled; in
  exact arithmetic no audi function modelled here depends on it, with rounding
  the last digits do (C49).  Packed exponents are naturals,
  without obake's overflow checks.
* Machine integers are wrapped where the C++ code can reach the wrap:
  `unsigned` sums in `find_cf`, `int` truncation degree in `integrate`,
  `unsigned` products in the loops of sin and cos, 32-bit binomials in atan.
  Loop counters bounded by the order are naturals.
* C math functions are the record `Elem K`; over R they are the mathematical
  functions.
* `gdual<vectorized>` is modelled for coefficients of size 1 or N
  (type `vec K N`); `vectorized` alone for all sizes.
* Eigen's determinant and inverse are the record `Linalg K`; the theorems state
  what they need of them.
* `std::unordered_map` is an association list; its iteration order is a
  parameter (`iter`) of the functions that iterate, an arbitrary permutation.
* Taylor models: the scalars of the theorems are the reals and interval bounds
  are exact (boost rounds outward; rounding is not modelled).  The boost
  interval functions exp, sqrt, sin, ... are the record `IvFun`; the theorems
  assume only that they enclose the images (`iv_sound`).  A setter that throws
  is modelled together with the object it leaves behind.  The uninitialised
  `m_ndim` of the default constructor is a parameter.  `int` arguments of
  `factorial2` and the `long long` product wrap.  Printing is modelled
  in `Io.v` (C47); the text of a number and of a polynomial is a parameter.
* Range of `double`: no number is too large.  The places where the code itself
  checks the range are modelled: `boost::math::factorial<double>(n)` throws
  above n = 170, in `get_derivative` and in the Taylor model functions;
  `boost::math::bernoulli_b2n` throws in tan and tanh at orders of 259 and
  above (`gtan_call`, `gtanh_call` in `FunRange.v`; `gtan` and `gtanh`, used
  everywhere else, are the functions without that call).
* Doubles (C49): a product is rounded before it is added (a fused
  multiply-add, which a compiler may use, rounds once less and is not covered).
  The model adds the contributions to a coefficient in one order; the error
  bound (`C49_mul_any_order`) holds for every order, while the finiteness and
  exactness theorems are stated for the order of the model.  The C math
  library and the elementary functions on gduals are not analysed for rounding.
* Serialization: archives are lists of tokens, exact for numbers; the members
  of obake's polynomial are its symbol set and its terms.  The text and binary
  encodings, version numbers and the real128 special case are not modelled.
* `int` degrees and sizes in the bounding code are naturals without overflow;
  the 64-bit arithmetic of `binomial` is modelled with wrap-around.
* Text output: the text of a number or of a polynomial is a parameter; maps are
  lists in iteration order; field widths are naturals.
* Python: objects are floats, ints, strings, lists, tuples and byte strings; a
  failed cast throws `RuntimeError`; pickled bytes carry the token stream of
  `Serial.v`.  In expressions (C51) a value is an int, a float or a
  `gdual_double`; which C++ function is called follows the run-time types as
  pybind11 and Python's rules for binary operators resolve them.  Ints are
  unbounded and convert exactly; complex results of Python's `**`, `bool`,
  numpy scalars, and the other classes of the module are not represented; all
  Python exceptions are one.  In C52 a value may also be a `taylor_model` or an
  interval (`int_d`); a combination of types without an overload throws.  In C53
  a value may also be a `gdual_vdouble` whose coefficients have size 1 or N,
  for one N.  Scripts (C55) are sequences of assignments, conditionals, counted loops and while loops;
  every name has a value, and no object is changed in place.  The
  other bindings (which only forward to C++)
  are not modelled.
* Complex coefficients (`gdual_c`, C50): pairs of reals, principal values of
  the functions of `<complex>`, no rounding.  Covered are the operators and
  the functions whose templates compile for `std::complex<double>`, with
  `atanh_d` and `atan_d` among them.  Division by zero and the
  value of `log` at 0 have no meaning in the model (they are inf or nan in
  C++).
* Not modelled: stream output of polynomials, `info()`, quadruple coefficients (except as an instance of
  `FieldLaws`), threads (`AUDI_WITH_...` parallel multiplication in obake).
