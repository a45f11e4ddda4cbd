# Formal model of ampform-dpd: design

The model lives in `rocq/theories/` (Coq 8.16.1, logical name `Verif`).  Model
files contain only definitions that transcribe `/repo`, each with a comment
citing the file and the lines it models.  `Spec*.v` files contain independent
specifications.  `*Facts.v` files contain proofs.  `Props*.v` files contain the
property theorems, each closed by `exact lemma`, each followed by
`Print Assumptions` and next to an `Example` that shows the hypotheses are
satisfiable.

## Conventions of the model

* A Python function is a Coq function.  Exceptions are values: `res A` is
  `Ok a | Err exn`.  Branches are kept in source order.
* Warnings are returned next to the value.
* Dictionaries are insertion-ordered association lists with Python's update rule
  (an existing key keeps its position).  Sets of small ints iterate in ascending
  order.
* Spins and helicities (`sympy.Rational`s with denominator 1 or 2) are doubled
  integers (`Z`).  The validator that only lets such rationals in is modelled on
  `Q` in `Decay.v`.
* SymPy expressions are inductive types with an evaluation function: `rexpr`
  (real kinematic expressions), `cexpr` (complex amplitude expressions).  The
  model functions return expressions, the theorems talk about their values in
  every environment (and about their free symbols).
* SymPy's automatic simplifications are not modelled: expressions are compared by
  value, never by shape.  Exceptions: a product with a factor 0 is 0 and differences
  of numbers are numbers (`occ` in `CExpr.v`, `DoIt.v`), because they decide which
  symbols are left.  `doit()` leaves `Wigner.d`, `CG` and the lineshape functions in
  place with evaluated arguments.
* Floats are reals, except in the numbers of tables, where the rounding to binary64
  is part of the model (`IO.v`).  Hash-based caching (`functools.cache`) is modelled
  explicitly where it is observable (`Cached.v`), and otherwise omitted because
  the arguments are immutable.

## Trusted base

* Coq's kernel.
* The axioms `Print Assumptions` reports: none, or the standard library's real
  number axioms (`ClassicalDedekindReals.sig_forall_dec`,
  `ClassicalDedekindReals.sig_not_dec`,
  `FunctionalExtensionality.functional_extensionality_dep`) and, where a library
  lemma on trigonometry uses it, `Classical_Prop.classic`.
* The transcription from Python to Coq (checked by reading, by the mutation log in
  `seeded/LOG.jsonl`, and by computing in the model what the tests and doctests of
  `/repo` expect: `Conf.v`, `ConfBuilder.v`, `ConfLc.v`; all those expectations that
  can be written in the model hold of it).
* `tools/json2coq.py`, which wrote `LcModel.v` from `/repo/docs/Lc2ppiK.json`
  (only examples and conformance checks use `LcModel.v`).
* The following behaviour of libraries that are not part of `/repo`, written down
  as Coq definitions: `ampform.kinematics.phasespace.Kallen` and
  `compute_third_mandelstam`; `ampform.sympy.PoolSum` (finite sum over index
  values); SymPy's `Wigner.d` (Wigner's explicit small-d formula), `CG` (Racah's
  formula), `KroneckerDelta`; qrules' `Topology.relabel_edges` / `swap_edges`;
  attrs' generated `__eq__` and `__lt__`; `BlattWeisskopfSquared`, `FormFactor`
  of ampform; tensorwaves' `create_function`, `create_parametrized_function` and
  `update_parameters`; `functools.cache`; `difflib.SequenceMatcher` and
  `get_close_matches` (in exact instead of floating point arithmetic), `repr` of a
  text; ampform's `cache_to_disk` (equal hashes
  come from equal arguments).

## Files

| file | contents |
| --- | --- |
| `Prelude.v` | exceptions, dictionaries, sorting, small-int sets |
| `Spin.v` | model of `spin.py` |
| `Decay.v` | model of `decay.py`, `_attrs.py` |
| `Expr.v` | real expressions of SymPy/ampform as far as they are used |
| `Angles.v` | model of `angles.py` |
| `Wigner.v`, `CG.v` | Wigner d functions and Clebsch-Gordan coefficients |
| `CExpr.v`, `Builder.v` | complex expressions; model of `__init__.py` |
| `Dynamics.v` | model of `dynamics/__init__.py` and `dynamics/builder.py` |
| `Qrules.v` | model of `adapter/qrules.py` |
| `SerFormat.v`, `SerDynamics.v`, `SerAmplitude.v` | models of `io/serialization/`: `format.py` and `decay.py`, `dynamics.py`, `amplitude.py` |
| `IO.v`, `SpecIO.v`, `IOProofs.v`, `IOFloat.v`, `IOTables.v`, `IOLatex.v`, `PropsIO.v` | `io/__init__.py`: Markdown tables, item types, LaTeX; numbers as binary64 (`SpecFloat` of the standard library, related to the reals with Flocq) |
| `Cached.v`, `SpecCached.v`, `CachedProofs.v`, `PropsCached.v` | `io/cached.py`: histories of `lambdify` calls, updates and restarts over a heap, a memory cache and a disk cache |
| `SpecPropagators.v`, `SerPropagators.v`, `PropsPropagators.v` | the lineshapes of serialised chains with user-defined builders |
| `CGOrth.v`, `CGComplete.v` | orthogonality and completeness of the Clebsch-Gordan coefficients as given by Racah's formula, via Hahn polynomials, and their symmetry under exchange of a particle with the total |
| `LSBasis.v`, `SpecLS.v`, `LSProofs.v`, `PropsLS.v` | change of basis between LS and helicity couplings, parity |
| `ChainProofs.v`, `SpecBasis.v`, `BasisProofs.v`, `SpecParity.v`, `ParityProofs.v`, `ChainExamples.v`, `PropsChains.v` | whole models: additivity over chains, equivalence of LS and helicity couplings, reversal of all helicities |
| `SpecRelabel.v`, `RelabelFacts.v`, `RelabelProofs.v`, `RelabelExamples.v`, `RelabelShapes.v`, `RelabelShapeExamples.v`, `PropsRelabel.v` | models under a change of the labels of the final state |
| `SpecNodes.v`, `NodeProofs.v`, `PropsNodes.v` | construction and LaTeX of decay nodes |
| `SpecObs.v`, `JacobiFacts.v`, `LegendreFacts.v`, `ObsKin.v`, `ObsProofs.v`, `ObsShapes.v`, `ObsExamples.v`, `PropsObs.v` | observables: integrals of Wigner functions, Legendre polynomials, lines through the Dalitz plot |
| `SpecForm.v`, `FormProofs.v`, `PropsForm.v` | dependence of the intensity on the couplings: linear combinations, interference term |
| `SpecFinite.v`, `FiniteFacts.v`, `FiniteShapes.v`, `FiniteExamples.v`, `PropsFinite.v` | the numbers that expressions divide by; models without poles, a pole of the decay form factor |
| `SpecHankel.v`, `SpecUnits.v`, `HankelFacts.v`, `UnitFacts.v`, `UnitExamples.v`, `PropsUnits.v` | spherical Hankel functions and form factors; models in other units of mass |
| `SpecWorkflow.v`, `WorkflowFacts.v`, `WorkflowExamples.v`, `OrderFacts.v`, `OrderExamples.v`, `PropsWorkflow.v` | from reactions to models; order of the chains |
| `SpecTurn.v`, `TurnFacts.v`, `InterferenceFacts.v`, `PropsTurn.v` | what a change of the reference does for half-integer spins (C28); waves of different parity |
| `SpecAngular.v`, `AngularFacts.v`, `MirrorFacts.v`, `AngularExamples.v`, `PropsAngular.v` | angular distributions: polynomials in the cosine of the scattering angle, forward-backward symmetry, selection rules (C102-C104) |
| `PartialFacts.v`, `PropsPartial.v` | what holds instead of the refuted C03, C19, C45, C65, C69 |
| `Latex.v`, `SpecLatex.v`, `LatexFacts.v`, `PropsLatex.v` | C105, C106: `str.format`, LaTeX of lineshapes and of defined expressions |
| `Messages.v`, `SpecMessages.v`, `MessageFacts.v`, `MessageExamples.v`, `PropsMessages.v` | C107: texts of warnings about subsystems; LaTeX of indexed symbols |
| `SpecReorder.v`, `ReorderFacts.v`, `ReorderProofs.v`, `ReorderShapes.v`, `ReorderExamples.v`, `PropsReorder.v` | C108, C109: models under a change of the order of the decay products; identical particles |
| `SpecIdentical.v`, `IdenticalFacts.v`, `IdenticalProofs.v`, `IdenticalExamples.v`, `PropsIdentical.v` | C110: from a reaction with identical particles to a symmetric intensity |
| `SpecDefinition.v`, `SerComplete.v`, `SerCompleteExamples.v`, `PropsDefinition.v` | C111, C112: which serialised definitions are accepted |
| `SpecContinuity.v`, `ContinuityFacts.v`, `ContinuityProofs.v`, `PropsContinuity.v` | C113: continuity of the intensity |
| `SpecRename.v`, `RenameProofs.v`, `RenameExamples.v`, `PropsRename.v` | C114, C115: phases, conjugation and other particles with the same spins |
| `SpecAgree.v`, `AgreeProofs.v`, `AgreeExamples.v`, `PropsAgree.v` | C116: agreement of built and serialised models for spinless parents |
| `SpecWeights.v`, `SerWeights.v`, `SerSymbols.v`, `SerWeightExamples.v`, `PropsWeights.v` | C117, C118: weights and reference subsystem of serialised models |
| `SpecOptions.v`, `OptionFacts.v`, `SpecBases.v`, `BasesProofs.v`, `SpecReversal.v`, `ReversalProofs.v`, `OptionExamples.v`, `PropsOptions.v` | C119–C121: options of the builder: all subsystems, mixed bases, parity in any basis |
| `SpecFractions.v`, `FractionProofs.v`, `PropsFractions.v` | C122: interference of any number of contributions |
| `Difflib.v`, `SpecSuggest.v`, `DifflibFacts.v`, `SuggestProofs.v`, `SuggestExamples.v`, `PropsSuggest.v` | C123: text of the KeyError of `get_function_definition`, with Python's `difflib.get_close_matches` and `repr` of a text |
| `LcModel.v`, `LcProofs.v` | `/repo/docs/Lc2ppiK.json` as a model definition, with the lineshape of `docs/serialization.ipynb`; it satisfies the hypotheses of C52-C73 |
| `Conf.v`, `ConfBuilder.v`, `ConfLc.v` | expectations of the tests and doctests of `/repo`, computed in the model |
| `SpecSpin.v`, `SpecKin.v`, `SpecBuilder.v`, `SpecDPD.v`, `SpecDynamics.v`, `SpecQrules.v`, `SpecSerial.v`, `SpecSerialShapes.v` | specifications: spins, four-vectors and invariants, decays and models, the DPD formula of the literature, lineshapes, transitions, serialised definitions |
| `SpinFacts`, `SpinProofs`, `DecayFacts`, `DecayProofs` | proofs of C01-C10 |
| `KinFacts`, `AnglesFacts`, `AnglesGeo`, `Dimension`, `AnglesProofs` | proofs of C11-C20 |
| `Sums`, `WignerFacts`, `CGFacts`, `CExprFacts`, `BuilderFacts`, `ModelFacts`, `RefFacts`, `OccFacts`, `BuilderProofs`, `RefRefuted`, `BuilderExamples` | proofs of C21-C35, C39, C40, C63, C64 |
| `DynamicsProofs`, `LineshapeFacts`, `LineshapeProofs`, `DynExamples` | proofs of C36-C38 |
| `QrulesFacts`, `QrulesNorm`, `QrulesThree`, `QrulesFilter`, `QrulesConvert`, `QrulesDecay`, `QrulesLabels`, `QrulesMinLs`, `QrulesExamples` | proofs of C41-C49, C65-C69 |
| `SerDecay`, `SerAmpFacts`, `SerModel`, `SerProofs`, `SerDyn`, `SerTotal`, `SerFormal`, `SerShapes`, `SerExamples` | proofs of C50-C59, C70-C74 |
| `Props*.v` | the property theorems |
| `SpecParts.v`, `SerParts.v`, `PartExamples.v`, `PropsParts.v` | C124: parts of serialised models, weights set to zero, linear combinations of weights; for docs/Lc2ppiK.json |
| `DoIt.v`, `DoItFacts.v`, `FullFacts.v`, `SpecFull.v`, `FullProofs.v`, `PropsFull.v` | C125: `full_expression` as an expression (`doit`, `xreplace`): value, expansion, symbols, inputs |
| `SpecSerPoints.v`, `SerPoints.v`, `SerPointExamples.v`, `PropsSerPoints.v` | C126: serialised models at different points: common factors, units, opposite widths |
| `SpecSerFinite.v`, `SerFinite.v`, `SerFiniteExamples.v`, `PropsSerFinite.v` | C127: serialised models have no poles and are continuous |
| `SpecUnitary.v`, `UnitaryProofs.v`, `ChannelProofs.v`, `PropsUnitary.v` | C128, C129: unitarity, partial widths and normalisation of lineshapes |
| `SpecSerRelabel.v`, `SerRelabel.v`, `SerRelabelDef.v`, `SerRelabelExamples.v`, `PropsSerRelabel.v` | C130: new labels and order of decay products in serialised models |
| `SpecWigner.v`, `WignerFrames.v`, `WignerProofs.v`, `WignerUnique.v`, `PropsWigner.v` | C131: the alignment angles are the Wigner rotations between the helicity frames |
| `SpecCovariant.v`, `CovariantRep.v`, `CovariantProofs.v`, `CovariantExamples.v`, `PropsCovariant.v` | C132: the amplitudes of all chains are added in one frame |
| `SerCovariant.v`, `PropsSerCovariant.v` | C133: serialised models: the amplitudes of all chains are added in one frame |
| `CGRotation.v`, `SpecWave.v`, `WaveFacts.v`, `WaveProofs.v`, `WaveExamples.v`, `PropsWave.v` | C134: models with LS couplings are sums of partial waves |
| `SpecMassless.v`, `MasslessFacts.v`, `MasslessExamples.v`, `PropsMassless.v` | C135: helicities of massless final states need no alignment |
| `SpecLine.v`, `LineFacts.v`, `LineProofs.v`, `LineBoundary.v`, `LineExamples.v`, `PropsLine.v` | C136: conservation of angular momentum at the boundary of the Dalitz plot |
| `SpecEnvelope.v`, `EnvelopeFacts.v`, `EnvelopeSerial.v`, `EnvelopeExamples.v`, `PropsEnvelope.v` | C137: an upper bound of the intensity |
| `SpecProjection.v`, `ProjectionFacts.v`, `ProjectionExamples.v`, `PropsProjection.v` | C138: partial waves in the projection onto the invariant mass |
| `SpecSmooth.v`, `SmoothFacts.v`, `SmoothAngles.v`, `SmoothProofs.v`, `SmoothExamples.v`, `PropsSmooth.v`, `SpecSerSmooth.v`, `SerSmooth.v`, `SerSmoothExamples.v`, `PropsSerSmooth.v` | C139: derivatives of angles, lineshapes and the intensity along curves of points, parameters and couplings |
| `SpecPolar.v`, `PolarFacts.v`, `PolarProofs.v`, `PropsPolar.v` | C140: spin density matrices of the aligned amplitudes, their rotation between reference subsystems and parity |
| `SpecBounded.v`, `BoundedFacts.v`, `BoundedProofs.v`, `PropsBounded.v`, `SpecSerBounded.v`, `SerBounded.v`, `SerBoundedExamples.v`, `PropsSerBounded.v` | C141: kinematic limits of the invariant masses and an upper bound of the intensity on the Dalitz plot |
| `SpecNormal.v`, `IntegralFacts.v`, `NormalKin.v`, `NormalFacts.v`, `NormalProofs.v`, `NormalExamples.v`, `PropsNormal.v` | C142: projections of the intensity and its integral over the Dalitz plot |
| `FubiniFacts.v`, `AxisFacts.v`, `AxisProofs.v`, `AxisModels.v`, `AxisExamples.v`, `PropsAxis.v` | C143: the order of integration over the Dalitz plot |
| `RateFacts.v`, `RateProofs.v`, `RateWaves.v`, `RateExamples.v`, `PropsRate.v` | C144: rates as forms of the couplings, and rates of parts |
| `SpecPhase.v`, `PhaseProofs.v`, `PhaseModels.v`, `PropsPhase.v` | C145: phases of Breit-Wigner functions, widths at the threshold |
| `RateForm.v`, `SerRate.v`, `SerRateWeights.v`, `SerRateExamples.v`, `PropsSerRate.v` | C146: rates of serialised models as a function of the weights, rates of their parts |
| `SpecTransfer.v`, `TransferFacts.v`, `TransferModels.v`, `TransferExamples.v`, `PropsTransfer.v` | C147: projections and rates in other units, with other labels and other reference subsystems |
| `SpecNarrow.v`, `NarrowFacts.v`, `NarrowProofs.v`, `NarrowExamples.v`, `PropsNarrow.v` | C148: the rate of a narrow resonance |
| `SpecClosed.v`, `ClosedProofs.v`, `PropsClosed.v` | C149: closed channels |
| `BelowProofs.v`, `PropsBelow.v` | C150: resonances below the threshold |
| `SpecEffect.v`, `EffectProofs.v`, `EffectExamples.v`, `EffectShapes.v`, `PropsEffect.v` | C151: couplings with and without an effect |
| `SpecScale.v`, `ScaleProofs.v`, `PropsScale.v` | C152: couplings that give the same amplitudes |
| `SpecSerEffect.v`, `SerEffectProofs.v`, `SerEffectShapes.v`, `SerEffectExamples.v`, `LcEffect.v`, `PropsSerEffect.v` | C153: weights of model files with and without an effect |
| `SpecSerMassless.v`, `SerMassless.v`, `SerMasslessExamples.v`, `PropsSerMassless.v` | C154: massless final states of model files |
| `SpecSerChain.v`, `SerChain.v`, `SerChainExamples.v`, `PropsSerChain.v` | C155: mass distributions of single chains of model files |
| `SpecSerCombine.v`, `SerCombine.v`, `PropsSerCombine.v` | C156: chains of one subsystem of model files |
| `SpecLcParameters.v`, `LcParameters.v`, `PropsLcParameters.v` | C55, C56 for docs/Lc2ppiK.json: all 74 numbers of lineshapes, 26 radii and 26 weights of the file keep their values in the model (masses of states excepted) |
| `SpecSerWaves.v`, `SerWaves.v`, `SerWavesExamples.v`, `PropsSerWaves.v` | C157: resonances with different spins in mass distributions of model files |
| `SpecSerOpposite.v`, `SerOpposite.v`, `PropsSerOpposite.v` | C158: resonances of opposite parity in one subsystem of a model file |
| `SpecSerStrip.v`, `SerStrip.v`, `PropsSerStrip.v` | C58: blanks around parity factors, with an independent definition of stripping |
| `SerWavesRate.v`, `SerWavesRateExamples.v`, `PropsSerWavesRate.v` | C157, C158: rates of chains that do not interfere add |
| `SpecSerNarrow.v`, `SerNarrow.v`, `SerNarrowExamples.v`, `PropsSerNarrow.v` | C159: the limit of a narrow resonance in a model file |

Not modelled: LaTeX printing of SymPy objects, pickling/disk cache of
`cache_to_disk` beyond its key/value behaviour, logging/tqdm, type stubs,
`load_particles` and reading of YAML/JSON files from disk (the models start at
the parsed value), `DPD docs` and notebooks.

## Properties

Spin
* C01 `create_spin_range` on doubled integers with the float-free recursion of
  `arange` (fuel bounded by the interval length, out-of-fuel impossible); proof by
  induction on the number of steps; spec: explicit list `-j+n`.
* C02/C03 membership characterisation of the double loop; sortedness and NoDup of
  `sorted(set)`.  C03 is false: witness J=s1=s2=1/2 (theorem `_refuted`), and the
  positive version under "J+s1+s2 is an integer".
* C04 list induction.

Decay
* C05/C06 the constructor's post-init checks as a function to `res`; iff
  characterisation against an inductive spec of a three-body chain; C06 is false
  for decay products (AttributeError from sorting by `.index`).
* C07-C10 list induction; `sorted` by key; partition by spectator.

Angles
* C11 the three functions over all `Z` arguments, recursion with fuel; exact
  outcome table.
* C12-C14, C17, C20 evaluation to real numbers; algebraic identity
  `1-cos^2 = 4 m^2 Kibble/(lambda lambda)`; addition theorem of arccos; sign of
  the sine from the Kibble function.
* C15, C16 four-momenta as `(E,p) in R*R^3`; the expression is evaluated at the
  invariants of the momenta and shown equal to the angle between 3-vectors.
* C18 homogeneity of all expressions.
* C19 is false: the guard compares a set with tuples.

Builder
* C21 evaluation of `compute_third_mandelstam`.
* C22-C26, C29, C39 transcription of the builder; the value of every amplitude is
  computed by structural evaluation; closure of symbols by induction on the loops.
* C27 uses the group law of Wigner d functions, proved from the explicit formula
  through its action on homogeneous polynomials, and C13/C14; C28 is false for
  half-integer initial spin: d(2 pi) = -1.
* C30-C35 histories as lists, induction.
* C36-C38 dynamics expressions with complex evaluation.
* C40 symmetry of Racah's formula by reindexing its sum.

QRules adapter
* C41-C49 topologies as edge lists; sorting and grouping by key.  C44, C45, C48, C49
  are false in general: universal or concrete counterexamples, and the parts that
  hold.  C65, C69 likewise.
* C66-C68 the phases of `to_three_body_decay` one after the other: relabelling is a
  renumbering (C41), conversion is a relation between objects (C47), the filter is
  characterised by groups (C43), chains are injective in the transition.

Serialization
* C50-C59 JSON model definitions as inductive data; lookups and chain amplitudes.
  C52-C57 are false in general: counterexamples, and what holds instead.
* C70-C74 the loops of `formulate` over the chains with an invariant; the value of
  each chain by evaluation; totality by structural conditions on the definition
  (`complete_chain`).

IO
* C60, C61, C75-C77 the texts that the functions return are read back by a small
  Markdown reader (`table_cells` in `SpecIO.v`).  C60 and C75 are false in general.
* C62, C78, C79 heap with mutable function objects, a memory cache keyed by Python
  equality and a disk cache keyed by an abstract hash; an invariant over all
  histories of calls, updates and restarts.  C62 is false in general.
* C80, C81 the coefficients of Racah's formula are Hahn polynomials: orthogonality by
  summation by parts, completeness by counting, then the recoupling from (L, S) to the
  two helicities with the exchange symmetry; parity by the reversal symmetry, the
  number of parity-conserving couplings by a trace.
* C82 induction on the loop over the propagators, for arbitrary builders.
* C83 sums over permuted and concatenated lists of chains; the intensity depends on the
  amplitudes only.  C84 the change of basis of C80 at both nodes of every chain, with
  couplings chosen by label and helicities.  C85 d^j_{-a,-b} = (-1)^(a-b) d^j_{ab}, the
  reversal symmetry of Clebsch-Gordan coefficients and a reindexing of the helicity sums.
* C86, C87 the angles with new labels: equal for the same cyclic order; theta becomes
  pi - theta and zeta changes its sign for an exchange.  Then d^j_{m,-n}(pi-x) =
  (-1)^(j+m) d^j_{mn}(x), d^j(-x), and a bijection of helicity tuples.  C88 is false in
  general (counterexample with massless final states, where all angles are rational);
  C87 with both models equal for chains with one sign.
- **C89** The lineshape of a chain as a function of the values of its symbols (C36) has the
  same arguments after relabelling; applied to all chains it gives the hypothesis on the
  lineshapes of C86 and C88.
- **C90** Splitting of the text at blanks; numbers contain no delimiter, so the text of an arrow
  determines L and S; induction on the node for couplings at any depth.
- **C91** Case analysis of the converters; a canonical rational has denominator 1 or 2 exactly
  if it is a number of halves.
- **C92** The alignment matrices are orthogonal (product of four orthogonal Wigner matrices).
- **C93** Only helicity 0 is left; d^J_{00} is the Legendre polynomial (both satisfy the same
  recursion, by comparison of the coefficients in half-angle form).
- **C94** A point of the line is physical exactly if |cos theta| <= 1 (Gram determinant in one
  direction, explicit momenta in the rest frame of the isobar in the other); cos theta is linear
  along the line; orthogonality of Wigner functions by Beta integrals and finite differences.
- **C95** Amplitudes are linear (from the closed formula of C24 the coupling is a factor of every term), so are the
  aligned amplitudes; the interference term is the sum over helicities of a1 x conj(a2), bounded with Cauchy-Schwarz.
- **C96** `divisors` lists the values of all denominators. Structural induction over the construction of the amplitudes
  gives exactly the divisors of the lineshapes. For real parameters the width is positive, so the denominator of a
  Breit-Wigner has a non-zero imaginary part; the Blatt-Weisskopf polynomials have positive coefficients and q^2 >= 0 above
  the thresholds. The decay form factor is evaluated at sigma^2 (C37), so q^2 can be negative at physical points and
  1 + q^2 R^2 can vanish: refuted for it, proved without decay form factors and for S waves.
- **C97** The sums in the Hankel functions satisfy S_{n+2} = i(2n+3)/x S_{n+1} + S_n, the Blatt-Weisskopf polynomials P_n a
  recursion with their derivatives; induction gives x^{2n} |S_n|^2 = P_n(x^2) for all n. Monotonicity compares coefficients.
- **C98** The angles are of degree 0 in the masses (C18) and depend on the seven invariants only, the lineshapes scale by
  C37; both are inserted in the formulas for amplitudes and intensity (C24, C26).
- **C99** The decay of C67 and C68 has the states 0-3 of the transitions, resonances that are plain particles with two
  final states, and couplings where the transitions have them; so it meets the conditions of C24, C26, C36 and C63. The loop
  over `register_builder` (induction over the chains) leaves the same builder under every chain, so that the look-up by
  name does not matter.
- **C100** C83 with nothing switched off, in both directions; the automatic reference depends on the numbers of chains
  only (C30).
- **C101** Reversing all helicities multiplies the amplitudes of the two groups by opposite signs (as in C85, without any
  condition on parities); the tuples of helicities are closed under reversal, so that the mixed terms of the squared moduli
  cancel in pairs.
- **C102** Wigner d-functions times the factor (1-x^2)^(1/2) of their helicity difference are polynomials; products of two
  with equal helicities are polynomials of the sum of the spins (`wigner_poly`), so is every squared amplitude; with one
  subsystem the intensity is the sum of these (C92). Along a line of constant mass the cosine is affine in the Mandelstam variable.
- **C103** d^J_{m,n}(pi - x) = (-1)^(J+m) d^J_{m,-n}(x) and the symmetry of Clebsch-Gordan coefficients under reversal give the sign
  term by term; the sum over helicities is invariant under reversal of two of them; parallelogram identity for the interference.
- **C104** d^J vanishes outside of its helicities, and at 0 and pi unless the helicities are equal or opposite.
- **C105** `str.format` is modelled as a state machine over the template; for each class it is evaluated for arbitrary printed
  arguments. Braces: the number of open groups while reading a text; texts are composed of balanced ones. False of
  `ChannelArguments`, whose template has its braces the wrong way round (KeyError for every object).
- **C106** The lines of the text, by induction on the parameters; printed expressions are assumed to have no newlines.
- **C107** The model of the messages is evaluated on decays with states 0 to 3: the dictionary of final states keeps the order of the
  states, and sorting the names of at most three subsystems sorts the subsystems.
- **C108** The accessors of a reordered chain are those of the chain, except the order of the
  decay products; the LS factor of a vertex with exchanged children follows from the symmetries
  of Clebsch-Gordan coefficients (C15); then sum by sum as in C86.
- **C109** The proof of C86-C88 for chains that are relabelled and then reordered; the signs of
  C108 and of C87 multiply.
- **C110** The permuted transitions differ from the original ones in the topology only, and with
  one spectator all spectators of the same name occur (C42); so the chains of C67 are closed under
  the exchange, and so are the minimal ones of C68, because the least coupling of a group is
  unique.  With C99 and C109 the intensity is symmetric.  The theorem holds for every equality and
  order of QRules objects; sorting does not compare states, because the topologies decide.
- **C111** Inversion of a successful run of `formulate` (io/serialization): every chain is
  formulated for at least one helicity combination, because no spin is negative; then inversion of
  the functions for weights, recouplings, dynamics, and of the construction of the decay.
- **C112** False: example of an accepted definition with a contradictory topology.  The keys of the
  amplitudes follow from an invariant of the loop.
- **C113** Limits along an arbitrary filter.  Induction over expressions, with the continuity of the
  complex square root off the negative real axis and of acos on [-1, 1] including its ends; the
  formulas of C24 and C26 for the intensity; the roots in Breit-Wigner lineshapes are those of
  non-negative numbers above the thresholds, as in C96.
- **C114**, **C115** One lemma for two models whose particles differ, but not their spins, and whose
  chains have the same strengths (couplings times lineshape) up to a phase and conjugation: these
  commute with the sums and real factors of C24 and C26, and keep the modulus.  The angles only
  depend on the point.  Breit-Wigners by their values (C36).
- **C116** The values of the amplitudes by C24 and C70: for a spinless parent the helicity of the
  resonance is that of the spectator, and of the serialised chains of one resonance only the one
  with the helicities of the amplitude contributes.  Subsystems without chains have vanishing
  amplitudes, so that the sums over subsystems of C26 and C71 agree.  (C52, C53: for parents with
  spin the serialised models differ from the helicity formalism.)
- **C117** Each chain contributes its weight times a factor without weights (C70); the rest is as
  for C95.  The symbols of built-in lineshapes are non-negative, those of weights have no assumption.
- **C118** The rule for the alignment angles of two references (as for C28), now for any amplitudes,
  and the values of the variables of a serialised model.
- **C119** Two builders that only differ in `all_subsystems` run the same loop; the longer one also visits subsystems
  without chains, for which the sum of chain terms is empty. Induction over the list of subsystem identifiers, with the
  dictionaries related by `extended_by`.
- **C120** As C84, with `with_choice` instead of `with_ls`: a vertex in the helicity basis keeps its coupling, a vertex
  in the LS basis is expanded with the orthonormality of the LS basis. Two arbitrary bases are compared through the
  common model with helicity couplings only.
- **C121** As C85; for a vertex in the helicity basis the sign of the LS factor is replaced by the sign that the
  relation of Jacob and Wick gives to the coupling.
- **C122** The aligned amplitudes are vectors over the helicities, linear in the couplings (and additive over the
  chains); the matrix is their Gram matrix. Bound by the Cauchy-Schwarz inequality.
- **C123** Invariants of the loops of `find_longest_match` (the recorded lengths are lengths of common parts, and no
  common part is longer than the best one), the decreasing total size of the queue of `get_matching_blocks`, a common
  subsequence with as many characters as the matches; the two quick tests of `get_close_matches` exclude nothing. The literal is read back character by character with an independent reader of Python literals
  (a case distinction over the 256 characters of the model's texts).
- **C124** The definition with fewer chains has the same functions and states, so the dynamics are the same. The amplitudes
  of a serialised model are sums over chains that are linear in the weights, and the amplitudes of absent subsystems are 0;
  then as C122.
- **C125** `doit` and `xreplace` are modelled as functions on expressions. Both keep the value if all helicity variables
  are bound by sums, which holds for formulated models by induction over the loops of `formulate`. What occurs in the
  result occurs in the intensity or in an amplitude, so C22, C23 and C73 apply. An expression without sums depends on what
  occurs in it only.
- **C126** Angles are unchanged at similar points (C18), so amplitudes are sums of the same real numbers times weight times
  lineshape of the chains. The built-in lineshape of every chain is a Breit-Wigner function with a width of one of two forms
  times form factors (C57, C70, C74); each piece scales, or is real, by lemmas on the functions.
- **C127** The divisors of C96 are collected through the loop of `formulate`, so those of amplitudes are those of lineshapes.
  Each built-in lineshape is a product of a Breit-Wigner function with widths of one sign (no zero of the denominator) and of
  form factors (no zero of the polynomial at real momenta); continuity follows as in C113.
- **C128** With real widths the denominator is m^2 - s - i m (g_1 + ... + g_n); the products of the entries of the matrix are
  sums over channels that close by |D|^2 = (m^2 - s)^2 + m^2 g^2. The width grows because momentum, phase-space factor and
  form factor (C97) do. The integral is that of the derivative of the arctangent.
- **C129** Refuted three times. The form factor of a channel is not divided by its value at the mass of the resonance, so P and
  higher waves do not have the given width there (exactly unless q R = 1); there is no phase-space factor, so S waves have a width
  at and below threshold; the first channel of Flatte is normalised to the momentum of the second. The parts that hold are proved.
- **C130** Serialised amplitudes do not depend on the helicity of the parent, so the sign of its alignment angle drops out and the
  argument of C125 works for any spin of the parent. Contents of chains with new labels are unique; lineshapes are compared through
  their explicit values.
- **C131** Frames are products of real unimodular 2x2 matrices, whose action on vectors of the xz plane is proved to be that of boosts
  and rotations. The triangle of the boosts of particle i directly and via the pair is solved by comparing both products with their
  transposes (two such matrices agree up to a sign, which half angles fix); its sides and angles follow from the Gram determinant.
  The general relation follows from the sum rules C13 and C14. The momenta of a chain get their three invariant masses from the three
  chains, whose momenta differ by a rotation.
- **C132** The representation of a 2x2 matrix for spin j is its action on homogeneous polynomials of degree 2j; products and rotations
  follow from the uniqueness of coefficients, as in C08. Components in frames compose like matrices; C131 for spinors then turns the sum
  over chains of `formulate_aligned_amplitude` into the sum of turned amplitudes. The sum over spins is the product of a frame with its
  transpose, which is the matrix of the momentum.
- **C133** The intensity of a serialised model (C71) has the alignment angles of C118; the argument of C132 is the same for any helicity
  amplitudes.
- **C134** Generating function of the Clebsch-Gordan coefficients: the coupled states of two spinors (x, y), (u, v) are the powers of
  xv - yu times states of the sum. A spinor matrix multiplies xv - yu by its determinant, so the coefficients intertwine the
  representations of C132 (`cg_covariance`). With rotations this moves the Wigner functions of the products through the coupling; the
  orbital wave turned to its direction has only the projection 0, and what is left is the factor of Jacob and Wick. The amplitude
  of a chain follows from C24 and the sum over spins of both nodes; an interchange of products gives the sign of C108.
- **C135** The squared sine of an alignment angle is proportional to the squared mass of the final state times the Gram determinant
  (C131), and the cosine of a massless state is 1 by the formulas. So the Wigner functions of this state in the aligned amplitude are
  Kronecker deltas; the squared moduli are collected by the helicity of the state. Couplings in the helicity basis carry the
  helicities of all final states of their chain, so that they select the amplitudes (C22).
- **C136** On a line all cosines are products of signs: with momenta a_n along the line and w_nm = a_n E_m - a_m E_n the numerators are
  4 m0 a_k w_ij (scattering angle), 4 m0^2 a_i a_j (theta hat), 4 m0 a_n w_nm and 4 w_nm w_nl (alignment of n). Wigner functions at 0
  and pi keep or reverse the helicity. The selection rule of a chain (C104) then turns into that of the reference subsystem, since each
  particle has one sign in each subsystem. A scattering angle of 0 or pi means that the Gram determinant is 0, and then energies and
  momenta on a line are calculated from the Dalitz variables.
- **C137** The rotations of the alignment are orthogonal, so the intensity is the squared norm of the sum over subsystems of the subsystem
  amplitudes (norm over all helicities); the norm of a sum is at most the sum of the norms. The norm of one chain over the helicities of
  parent and final states is bounded with the Cauchy-Schwarz inequality, using that the squares of a row or column of a Wigner matrix
  add up to 1. For LS couplings the Clebsch-Gordan coefficients are orthonormal, so the norm of a vertex is 1 or 0. The Legendre polynomial is 1 at angle 0.
- **C138** C94 gives the integral as a sum over helicities and spins of squared partial-wave amplitudes. For fixed spin these are a linear
  combination of real functions of the helicities, one for each pair of LS couplings, with the couplings times lineshapes as coefficients.
  The functions are orthonormal in the sum over all helicities, since the Clebsch-Gordan factors of production and decay are (C80);
  the helicity of the parent is summed over together with that of the spectator. Parseval's identity gives the sum over waves.
- **C139** Derivatives are those of Coquelicot, of real and imaginary part along a curve in one real parameter. `ceval_smooth` follows the expression, with the principal root differentiable off its cut and 0. The angles are handled by the Gram determinant: it is E^2 |p1 x p2|^2 in the rest frame, so that it is positive inside the Dalitz plot and all cosines are strictly between -1 and 1; the alignment angles of particles that stay massless are constantly 0 (C135). Serialised models: the same with the closed formulas of C49 and C127; only the roots of the lineshapes of the module are new.
- **C140** The sum over the helicities of the other states is the sum over all helicities of a decay in which the state is replaced by a spinless one (`other_tuples_eq`), so that the orthogonality of the alignment (C27) applies to it. `aligned_turn` is the amplitude-level statement behind C27 with the angle made explicit; the overall sign of a full turn drops out of the density matrix.
- **C141** The bound is the envelope of C137 with the maximum of each lineshape on its compact range. Breit-Wigners are continuous up to and including the threshold: versions of the lemmas of C96 and C113 with a closed threshold, where the width vanishes and m^2 - s does not. Serialised models: each lineshape of the module depends on its own invariant mass only, and what C127 asks of it at the lower limit holds on the whole range.
- **C142** The line sigma_k = s is parametrised by the cosine z of the scattering angle, sigma_j = c(s) + z w(s). For |z| < 1 the Gram determinant is positive, so all break-up momenta are, and C113 and C141 apply. A function that is continuous and bounded inside an interval is Riemann integrable, and its integral is continuous in a parameter; this gives first the projection and then the integral. Positivity spreads from a point to a neighbourhood by continuity.
- **C143** The intensity, continued with zero outside the Dalitz plot, is not continuous at the boundary, so the theorem on the order of integration of continuous functions does not apply to it. It is multiplied with n u / (1 + n u), where u is the positive part of the Gram determinant; the product is continuous on the whole plane. In the first order its integral approaches the total rate for large n, as the Gram determinant is a positive multiple of 1 - z^2 on each line; in the other order it stays below the total rate. Hence the total rate for one projection is not above that for the next, and going around the cycle gives equality.
- **C144** Integrals over the Dalitz plot are additive, homogeneous and monotone. The bound on the interference of two parts at a point is |G| <= sqrt(I_p I_q), and 2 sqrt(I_p I_q) <= t I_p + I_q / t for every t > 0, so that the integral of the interference is at most t N_p + N_q / t; the best t gives 2 sqrt(N_p N_q). The form of the couplings follows from the one at a point (C95) with the integrals for 1 : 1 and 1 : i. The sum over partial waves is C138 on each line of constant mass.
- **C145** The phase is pi/2 - atan((m^2 - s) / (m Gamma(s))). Below the mass the numerator falls and the width rises (C128). In S waves the squared ratio (s - m^2)^2 / rho^2 is a product of two rising factors above the mass; the D wave of C145_d_wave is a computed counterexample for higher waves. The width divided by q^(2L+1) is continuous at the threshold, and the width is bounded at high energies, as the barrier factors are.
- **C146** At each point the intensity is a Hermitian form of the weights (C124), whose entries are combinations of intensities for the weights v, v', v + v' and v + i v' (polarisation). Integrals are linear, so the rate has the same form; it is not negative, hence bounded by its diagonal. Changing weights does not change the phase space, because weights are not masses. The model with one chain has the rate of the model in which the other weights are 0.
- **C147** A change of unit and labels maps the lines sigma_k = const. of the Dalitz plot to such lines, and the parameter of a line (sigma_j) to a linear function of it: t^2 sigma_j, or t^2 times the third invariant mass if the labels are exchanged. The end points of the lines are given by the formula of C142, which is homogeneous and symmetric. Inside the line the intensities are related by C27, C86, C87, C89, C98, C118, C126 and C130; the integrals follow by linear substitution.
- **C148** The projection on the invariant mass is the sum over waves of C138, so that the rate is an integral over one variable of f(s) e / ((s - M^2)^2 + e^2 g(s)^2) with e = M G. It differs from f(M^2) times a Lorentzian by at most a small multiple of the Lorentzian (near M^2, by continuity of f and g) plus a multiple of e (elsewhere); the Lorentzian integrates to a difference of arc tangents, which tends to pi. Not covered: decay form factors (C37), several resonances with the same wave.
- **C149** The principal square root of a real number x is (sqrt x, sqrt(-x)) with the real square root that is 0 on negative numbers, so the complex width of FlattéSWave splits for all s > 0 into widths of open channels and a shift of the mass from closed ones; unitarity is then that of C128. Continuity follows from the continuity of these square roots. The squared form factor is real for all real arguments, so below the threshold the energy-dependent width is imaginary and the Breit-Wigner functions are real. Refuted for MultichannelBreitWigner, whose channels have no phase-space factor: a closed S wave absorbs, a closed P wave has a negative width, which can cancel the width of an open channel.
- **C150** With the parts of the square root of C149. At a mass below the threshold the phase-space factor at the mass is imaginary, so the energy-dependent width is imaginary at all energies above the threshold and the Breit-Wigner functions are real: the property is refuted for all parameters. In a P wave the squared form factor at the mass is negative, which gives a pole at any chosen value of s for one value of the width.
- **C151** The couplings of one term are set to one and all others to zero. Then one amplitude is a d function times non-zero factors, and the alignment is orthogonal, so the intensity is at least the square of this amplitude. The integral of the square of a d function over the physical range (C94) is positive, so it is not zero at some physical point. With one of these couplings set to zero the intensity vanishes. In the LS basis the orthonormality of C80 gives helicities with non-zero factors. In the helicity basis the d function is zero if |li - lj| > J, so these decay couplings are refuted.
- **C152** The amplitude depends on the couplings through their products only, so rescaling leaves it unchanged. For the converse the difference of two amplitudes on a line of constant mass is a sum of d functions of different spins; the integrals of C94 make each of its coefficients zero. In the helicity basis every production coupling occurs together with every decay coupling (the helicities of the two vertices are independent), so their ratios are one common factor. In the LS basis the sum over helicities of C138 separates chains with the same spin and different LS couplings.
- **C153** If only one weight is not zero, the intensity is the sum of the squares of the amplitudes of its chain, because the alignment rotations are orthogonal. The amplitude with the helicities of the chain is a product of couplings of the vertices (1, 2 or, for parity factor -1 and zero helicities, 0), a d function that is not zero somewhere on a line of constant mass (C151), and the lineshape, which is not zero at a point above all thresholds. Otherwise a coupling of a vertex is zero for all helicities of the final state, and so is the contribution of the chain. The d function is 0 in the model outside of the range of its helicities, so the theorem assumes that the helicities of the resonance are in this range. `C153_Lc2ppiK` is this statement for the 26 chains of docs/Lc2ppiK.json, including the two resonances with the lineshape of docs/serialization.ipynb.
- **C154** The alignment angles of a massless state are zero (C135), so the alignment is diagonal in its helicity. The contribution of a chain to an amplitude is zero unless the helicity of the state is the one of the file or, for parity vertices, its opposite; keeping a group of chains therefore restricts the amplitudes to the helicities of this group.
- **C155** With one weight, only amplitudes of one subsystem are left and the alignment is orthogonal, so the intensity is the sum of squares of the contributions of the chain (as in C153). Its couplings do not depend on the point; their squares are summed over the helicities. The Wigner function is integrated along the line of constant mass with the orthogonality relation of C94; a reversed pair replaces theta by pi - theta.
- **C156** With one spectator the alignment is orthogonal, so the intensity is the sum over helicities of squares of sums of contributions; a contribution is zero unless the helicities are a combination of the chain. Refutation: d^1_{1,0} = - d^1_{-1,0}, so the two chains cancel, while each has a positive mass distribution by C155.
- **C157** On a line of constant mass a contribution is a constant times a Wigner d-function of the angle, whose cosine is a linear function of the other Dalitz variable; the interference term is a finite sum of products of two such functions with the same helicities and different spins, which are orthogonal (Jacobi polynomials, as for C94). Opposite helicities give the same function up to a sign.
- **C158** With one active subsystem the intensity is the sum over helicities of squares of sums of contributions; a contribution is a product of couplings and a factor without helicities of the final states. The product of the decay couplings of two chains with opposite parity factors is odd under reversal of both helicities, so its sum over helicities is zero.
- **C159** The projection of C155 gives the integral over each line of the Dalitz plot; with the value of the lineshape of the file it is a Lorentz peak with an energy-dependent width times a bounded continuous function (length of the line and form factor). The limit of such integrals is that of C148.
