## 5. Testing the theorems

`seeded/LOG.jsonl` records model edits the way a realistic bug would make them
(wrong sign, boundary, dropped factor, swapped argument), the theorems whose
proofs failed and the theorems tightened when nothing failed. The edits are
applied in a scratch copy, and every affected file is rebuilt with the failing
lemmas dropped one by one, so that "failed" means a theorem itself, not just the
first lemma of a file. Proof scripts are also sensitive to harmless edits; a
failure is evidence that the theorem constrains the edited definition, not a
proof that the edited statement is false.

## 6. Trusted base

* Coq 8.16.1's kernel and the standard library, Coquelicot as a library of
  definitions and lemmas (it adds no axioms).
* The axioms `Print Assumptions` lists under each theorem, all from the standard
  library: `ClassicalDedekindReals.sig_forall_dec`,
  `ClassicalDedekindReals.sig_not_dec`,
  `FunctionalExtensionality.functional_extensionality_dep`,
  `Classical_Prop.classic`. Theorems about booleans, lists and naturals only are
  closed under the global context. A listing of constants without bodies also
  shows the sealed constants of `Coq.Reals.Rdefinitions` (`RbaseSymbolsImpl`,
  `RinvImpl`) and `Coq.ssr.ssrunder.Under_rel` (a sealed module of the ssreflect
  plugin library loaded by Coquelicot): module-sealed definitions, not
  assumptions of ours.
* No axioms, parameters, functors or module types of our own; no kernel check
  switched off; no admitted proofs.
* The reading of the Python source recorded in the comments of the `M_*.v`
  files. In particular: real for floating-point arithmetic; numpy semantics of
  indexing, masking, `argmax`, `searchsorted`, `choice` and in-place updates as
  modelled there; pint's unit conversions as identities; the randomness of the
  generator as arbitrary draws.
