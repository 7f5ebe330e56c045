## 4. Trusted base

* Coq's kernel, including `vm_compute`.
* The axioms of the standard library listed in section 6 and no others:
  `ClassicalDedekindReals.sig_forall_dec`, `ClassicalDedekindReals.sig_not_dec`,
  `FunctionalExtensionality.functional_extensionality_dep` (all three from `Reals`) and
  `Classical_Prop.classic`.  No axioms of our own, no functors, no plugins.
* `coqchk` on the compiled files also mentions `Coq.ssr.ssrunder.Under_rel.under_rel_done` and its siblings: fields
  of a sealed module of the standard library, loaded because Flocq (used by C87-C90, C92-C94) requires ssreflect.  No
  theorem depends on them, as section 6 shows.
* Faithfulness of the model to the Python source is by reading; each definition cites the lines it
  models and says where it simplifies.

## 5. Modelled and not modelled

Modelled: SR_point.py, SR_line.py, additional_stuff.py (all but plotting and string conversion);
SR_polygon.py: everything cited in `MPoly.v`, `MHeap.v`, `MDelaunay.v`, `MTri.v`, `MKeep.v`, `MRest.v`; SR_polygon_group.py: what
`MGroup.v`, `MCycles.v`, `MBase.v`, `MContain.v`, `MIntex.v` and `MRest.v` cite; SR_hauptteile.py: what `MVessel.v`, `MSplit.v`, `MRaum.v`, `MIntex.v`, `MKrempe.v` and `MRest.v` cite.

Not modelled:

* plotting, logging/printing, `__repr__`/`__str__`, `sys.stdout` redirection, unit test runners;
* reading of `eval`-ed strings; `deepcopy` is the identity on values (the copies are never shared);
* `x ** 2` is `x * x` (OverflowError of huge floats is not modelled);
* inputs of a wrong type, except for the Point constructor (C04) and `from_dict` (C56);
* the C library `triangle` (its answers are arbitrary);
* Delaunay2d for points of which three are nearly on one line: termination and planarity are proved in
  general position only (C85, C86); C45 states the invariants kept by every step in any case.
