# Formal model of jkbgbr/Srep3_old in Rocq (Coq 8.16.1)

## 1. How the code is modelled

* **Arithmetic is a parameter.** Every model function takes a record `Arith`
  (add, sub, mul, div, sqrt, comparison, `round(x, 8)`, trigonometry).  No axioms,
  no functors: it is an ordinary record, so each theorem says for which arithmetic it holds.
  * *any arithmetic* - `forall A : Arith`, possibly with the order laws a theorem needs as
    explicit hypotheses.  These cover the real binary64 program.
  * *exact reals* `RA` - real numbers of the standard library, `round(x,8)` = nearest multiple of
    1e-8, ties to even.  This is the idealised program: rounding of Points is modelled, rounding of
    the intermediate arithmetic is not.
  * *binary64* `FA L` - `Coq.Floats.SpecFloat` with precision 53 / emax 1024 (axiom free, computable,
    bit exact IEEE 754), `round(x,8)` as in CPython (correctly rounded decimal), libm functions as an
    arbitrary record `L` (an oracle).  Witnesses of refuted claims are computed here by `vm_compute`.
* **Exceptions are values.** `res A := Ok a | Err e`; Python `assert`, `ZeroDivisionError`,
  `ValueError` (math domain), `TypeError`, `NameError`, `KeyError`, `IndexError`, `AttributeError`,
  `raise Exception`.
* **Two layers.** Read-only code is modelled on values (points are coordinate pairs, segments carry
  their class).  Code that mutates or aliases Point objects (`move`, `mirror`, `rotate`, `purge`,
  `append`, the constructors of squares, arcs and vessel parts) is modelled on a heap
  `nat -> pt` with object identities (`MHeap.v`); `view` gives what a reader of the polygon sees.
* **Sets** of Points/LineSegments: membership is equality of hash and `==`; hashes are taken from exact
  coordinates, so the model compares coordinates exactly (assumption: CPython's tuple-of-float hash
  does not collide on tolerance-equal, coordinate-different points).  Iteration order of sets is an
  arbitrary permutation (an oracle `sched`).  `PolygonLine.__hash__` hashes a fresh generator object,
  i.e. an arbitrary number at every call: an oracle `hashing` (C49).
* **Randomness** (`random.uniform`) is an arbitrary stream of draws; theorems quantify over all of them.
* **Loops** with data dependent length (`while`) are modelled with a fuel argument; the theorems
  either hold for every fuel or prove that a stated fuel suffices.
* **Findings.** Where an expected property is false of the code, the theorem with the suffix
  `_refuted` exhibits (in binary64 or over the reals) a concrete input on which it fails, and the
  property itself is worded as the exact true characterisation.

## 2. Files

* `Base.v` results, lists; `Arith.v`, `ArithR.v`, `ArithF.v` arithmetic.
* Model, each definition citing file and lines:
  `MPoint.v` (SR_point.py), `MLine.v` (SR_line.py), `MPoly.v` (SR_polygon.py, value layer),
  `MHeap.v` (object layer), `MDelaunay.v` (class Delaunay2d), `MSphere.v` (additional_stuff.py),
  `MGroup.v`, `MCycles.v` (SR_polygon_group.py), `MVessel.v`, `MSplit.v`, `MRaum.v` (SR_hauptteile.py)
  and the further `M*.v` files.
* `Spec*.v` small independent specifications (plane geometry, heaps, even-odd rule, rooms, ideal heads).
* `P*.v` lemmas and proofs.
* `Prop*.v` only the property theorems (each closed by `exact`), their non-vacuity examples and
  `Print Assumptions`; generated from marked lemmas by `tools/gen_props.py` and committed.
* Non-vacuity: `Example`s next to the theorems, in the `Prop*.v` of the same name, or in
  `PropExamples.v` for the older files.  Theorems without hypotheses have none.
