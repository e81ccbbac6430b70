# Formal model of martinlackner/abcvoting in Rocq (Coq 8.16.1)

The library is modelled function by function as Gallina programs over plain
standard-library data (no axioms, no functors, no module types, no library
other than Coq's standard library). Every property of `properties.jsonl` is a
theorem `Cxx_...` in one of the files `rocq/theories/Claims_*.v`; the exact
list is `MANIFEST.json` (generated by `tools/manifest.py`).

## 1. Trusted base

* Coq 8.16.1's kernel (`coqc`; `vm_compute` is used in examples, in the
  counterexamples of `_refuted` theorems and in some finite case distinctions).
* **Assumptions.** Every theorem of every `Claims_*.v` file is followed by
  `Print Assumptions`; each prints *Closed under the global context*. The names
  of the `ssrunder`/`Under_rel` interface that `vcheck` lists for the whole
  development come from standard-library modules that are merely loaded (ssreflect's
  `ssrunder` is pulled in by the tactic library `Lia`/`Lqa` plumbing); no theorem
  depends on them, as the per-theorem output shows.
* That the Gallina definitions say what the Python code does (section 3). Each
  definition cites the file and lines it models and states its simplifications.
* That the specification files (`Spec*.v`) say what the English properties say.
  They contain only definitions, do not use the model's helper functions except
  the data types (`voter`, `profile`) and are meant to be read on their own.

## 2. Conventions of the model

* **Candidates** are `nat`. A **voter** is a record (approval list, weight in `Q`,
  "weight is a Python int" flag); a **profile** is (number of candidates, candidate
  names, list of voters).
* **Python sets** are duplicate-free lists. The list order stands for Python's
  iteration order; theorems quantify over it, or take the order as a parameter
  (`ord`), or prove independence of it (C29).
* **Committees** in outputs are strictly ascending lists (canonical form of a set);
  `canon` maps any enumeration of a set to it.
* **Numbers.** Python `int`, `fractions.Fraction` and `gmpy2.mpq` are `Q` compared
  with `==`. Floats are modelled for the algorithm
  "float-fractions" (Floats.v: a number is an int, a Fraction or a float; a float is its rational value; rounding and
  Python's `sum` are a parameter satisfying `float_ok`), and for the refutation C05, which uses the standard library's `SpecFloat`. In the solver-based algorithms the
  documented tolerances (`ACCURACY`, `CMP_ACCURACY`) are modelled as rationals.
* **Exceptions** are values: `result A := Ok a | Err e`, with a constructor for each exception class.
* **while loops** are fuelled recursions; running out of fuel is the distinct error
  `OutOfFuel`, and the theorems prove it is never returned.
* **Object identity and aliasing** (Profile objects, in-place mutation, `copy`) are modelled
  by a store (`Heap.v`); C48 proves that the store refines the value-level model.

## 3. What is modelled, and what is not

| /repo/abcvoting | model file(s) | not modelled |
|---|---|---|
| misc.py | Misc.v | `CandidateSet.__str__` only as used; docstring helpers |
| preferences.py | Preferences.v, Heap.v, FileIO.v (`__str__`), Compact.v (`str_compact`) | Python's `str` of a number (a parameter), type errors of foreign objects beyond the ones listed in Preferences.v |
| scores.py | Scores.v, RulesMonroe.v (Monroe scores), RulesSolver.v (maximin support) | gmpy2/float variants of the same formulas (exact arithmetic is assumed) |
| abcrules.py: Rule, verify, availability | Rule.v, Compute.v, ComputeSeq.v, ComputeAll.v | |
| abcrules.py: `output.*` of all rules | RuleReport.v | Python's `str` of numbers (a parameter); the report of "float-fractions" |
| abcrules.py: Thiele, separable, lexcc, minimax, trivial | RulesThiele.v, SavFloat.v | |
| abcrules.py: seq. Phragmén, Eneström, consensus | RulesSeq.v, Search.v; "float-fractions": Floats.v, RulesFloat.v | overflow, underflow and NaN of floats |
| abcrules.py: Equal Shares + completions | RulesMes.v; "float-fractions": RulesFloat.v | same |
| abcrules.py: Monroe, greedy Monroe | RulesMonroe.v | networkx itself (contract) |
| abcrules.py: RSD, EPH | RulesMore.v; EPH "float-fractions": RulesFloat.v | Python's Mersenne twister (the choices are a universally quantified list) |
| abcrules_gurobi.py, abcrules_mip.py, abcrules_ortools.py | Milp.v, RulesSolver.v | the solvers (contract) |
| properties.py | Checks.v, CheckSolver.v, Output.v (check, full_analysis), CheckReport.v (everything the checks print) | Python's formatting of numbers (parameter `printing`) |
| fileio.py | FileIO.v, Directory.v | file system access (os.walk's result and file contents are parameters); preflibtools' and ruamel.yaml's parsers (contracts) |
| output.py | Output.v | textwrap.fill (abstract function), log handler setup |
| generate.py | Generate.v | prefsampling's samplers (contract); probability laws |

**Contracts of external components.** Each is a predicate on an arbitrary function that the
theorem quantifies over, and each is shown to be satisfiable by a concrete instance:

* solver (`exact_solver`, Milp.v): for every guarded, bounded program it returns an optimal
  solution, or says infeasible if there is none; *any* optimal solution may be returned. Satisfied by the
  enumerating solver of RefSolver.v (`C43_exact_solvers_exist`). Solver tolerances are idealised: a
  returned integer variable is integral.
* networkx (`networkx_correct`): `max_weight_matching` returns a maximum matching,
  `min_cost_flow` an optimal integral flow. Satisfied by `ref_nx` (MonroeExample.v, `ref_nx_ok`).
* random numbers: universally quantified list of choices.
* preflibtools (`preflib_contract`, satisfied by `ref_write`), ruamel.yaml (`yaml_contract`, satisfied by identity).
* prefsampling (`sampler_contract`), Python's string sorting and set iteration order (`ord`).

* floating point (`float_ok`, SpecFloat.v): rounding has relative error at most 2^-53, is monotone and idempotent, integers up to
  10^6 are exact; `sum` is exact on ints and Fractions and has a small error otherwise (true of CPython's plain and of its
  compensated summation). Satisfied by `binary64` (FloatBinary.v: 53 bits, round half to even; `C79_binary64`).

"float-fractions" is the default algorithm of the Phragmén-type rules, Equal Shares, consensus and EPH. The rules' theorems before
C79 speak of the exact algorithms ("standard-fractions", "gmpy2-fractions"); there the float variant is an uninterpreted function
(`external`). C79/C80 instantiate it with the floating-point loops (`with_floats`).

## 4. Files

* `Prelude`, `Common`, `ProfileFacts`: vocabulary and library lemmas.
* Model: see table.
* `Spec`, `SpecRules`, `SpecSeq`, `SpecMore`, `SpecMonroe`, `SpecLoads`, `SpecAxioms`, `SpecPrice`, `SpecAll`,
  `SpecCompute`, `SpecFile`, `SpecOutput`, `SpecGenerate`, `SpecSame`, `SpecIso`, `SpecMono`, `SpecVary`, `SpecText`, `SpecReport`, `SpecRuleReport`, `SpecRuleTells`: independent specifications.
* `*Proofs` and others: proofs. `RefSolver`, `MonroeExample`, `ExampleData`: concrete instances of the contracts.
* `Claims_*`: the theorems, each closed by a short proof, followed by `Print Assumptions` and
  `Example`s that exhibit a concrete non-trivial instance meeting the hypotheses.

Naming: `_refuted` marks a theorem that *disproves* the unrestricted English statement (a finding about the code);
the positive theorem next to it carries the hypothesis under which the statement holds. `_partial` would mark an
incomplete statement.

## 5. Plan and method per property

* C01 fold model of `thiele_score`; induction over voters.
* C02 generic "scan for best" lemma over `itertools.combinations` + completeness of combinations.
* C03 search-tree invariant; bound lemma from non-increasing marginals. Refutation by computation for geom with base 1/2.
* C04 exact cutoff argument for separable rules; C05 SpecFloat computation.
* C06/C07 depth-first search combinator (Search.v) = reachability by greedy steps.
* C08-C10 scan lemma with lexicographic order. C11 reduction of Monroe scores to matching and flow; optimality of both.
* C12-C17 invariants over rounds; loads/budgets as functions; the irresolute searches as reachability.
* C18-C20 direct; RSD for every list of random choices; EPH round invariant.
* C21/C22/C55 consequences of the rule theorems for the public functions, by a case analysis on rule ids.
* C23, C50 decision lemmas over the rule table.
* C24-C31 direct; C26 by induction over operation sequences; C29 via congruence of all model functions under permutations.
* C32-C36, C56 checks against independently stated axioms; C37 implications.
* C38-C42, C52, C57 guarantees of the rules, from the specifications.
* C43/C44/C53/C54 solver oracle: encoding lemmas (feasible points <-> committees with their scores) and the enumeration loop with exclusion constraints.
* C45/C46/C58 file data structures; C47/C59 event traces.
* C48 store model and refinement. C49 direct. C51 linear systems as propositions.
* C60 the sampler is a parameter with prefsampling's contract; the wrapper's arithmetic and the construction of the profile are modelled.
* C28/C29/C61/C62 (SameSeq.v, Iso.v, IsoSeq.v, IsoAll.v): the specifications of the rules (`listed_by`, AllProofs.v) are
  transported along an isomorphism of profiles (renamed candidates, permuted voters, scaled weights); with completeness and
  soundness of the algorithms this gives equality of the returned lists.
* C63 (Mono.v, TieBreak.v): one more step of the run / removal of the last step; cutoff argument for AV and SAV.
* C64 (TieBreak.v): `itertools.combinations` is sorted by number; the scan keeps the first optimum.
* C65 (EnestroemPJR.v, MaximinPJR.v, ConsensusRun.v): invariants of the runs; a group left unsatisfied still has the money / support
  of its seats; the consensus counterexample is a certified run with a Qred checker.
* C66 (Vary.v, VaryRuns.v, VaryMes.v, VaryLoads.v, VaryAll.v): exchange arguments for the optimising rules; for the step-by-step
  rules the run of the old election is followed until `c` is elected or becomes eligible earlier.
* C67/C68 (Join.v, JoinAll.v) sums over voters split; C69 (Pareto.v) strict monotonicity of the sums;
  C70 (SingleSeat.v) each winner predicate reduces to maximal support; C71 from C21.
* C72 (StrProfile.v, CompactProofs.v) unique decoding of the text from separators; C73 (YamlMeaning.v) relational meaning of the
  data, shown equivalent to the reading functions.
* C74/C75 (CheckReport.v, SpecReport.v): the checks with the witness they find; the searches forget to the boolean checks, and each
  witness is a violation of the independently stated axiom; a solution of the solver is read back to a group and a cut, or to prices.

* C76-C78 (RuleReport.v; SpecRuleReport.v, SpecRuleTells.v say what each rule tells; RuleReport{Proofs,More,Seq,Loads,Mes,Maximin,All,Out}.v):
  the loops that record the account are shown to follow the runs of the specification, then the texts are matched sentence by sentence.
* C79/C80 (Floats.v, RulesFloat.v; SpecFloat.v): the floating-point loops follow CPython's mixed arithmetic and `misc.isclose`.
  FloatSearch/FloatStruct: termination and validity for any arithmetic; FloatBounds, FloatPhragmen: rounding errors of loads stay
  below the tolerance in small elections; FloatMes, FloatMesRun: budgets stay (nearly) nonnegative, so that the second phase cannot
  fail; FloatIncrement: the increment completion finds enough budget; FloatExact: simulation of the exact run without near ties.
* C82 (SpecFloatMore.v; FloatEph, FloatAbs, FloatConsensus, FloatEnestroem): the total absolute error of all budgets is bounded round by
  round (it can double per round in Eneström's method); with a gap above the margin the floating-point search makes the same choices.
* C83 (SpecFloatMore.v; FloatNear, FloatMesQ, FloatMesExact, FloatLoads): weighted total error of budgets (then loads) round by round; with integer
  weights all prices and loads are multiples of a known fraction, so that two different ones are further apart than the tolerance.
* C84 (Directory.v, DirectoryProofs.v): a sorted list is determined by its elements; the dictionary is built file by file.
* C85, C86 (SpecParty.v; PartyLists, PartyRules, PartySeq, PartyRest): the claim of a party to its next seat decreases with its seats; committees in
  which no unelected candidate's party has a better claim than an elected one's last seat are exactly those reached by greedy choices, by removals
  and by maximising the sum of the claims (exchange argument); loads and budgets of a party's voters are functions of its number of seats.
* C87 (SpecBlank.v; Blank, BlankAll): an indifferent voter adds the same number to every committee of one size (Thiele scores, lexicographic vectors,
  distances) and to every candidate (approvals, EPH points); voters who approve nobody occur in no load or support distribution.
  `same_winners` transports this to the calls. Leximax Phragmén is left out: with more voters the program fixes one load more, and its tolerances differ.
* C88 (SpecExtra.v; Extra, ExtraSeq, ExtraEph, ExtraAll, ExtraFirst): a committee with additional candidates is compared with one where they are replaced by unused old ones, who give every voter at least as many representatives; the sequential rules are simulated round by round (an additional candidate has load infinity, support 0, no price), Monroe assignments are moved along an injection, and E Pluribus Hugo eliminates all unsupported candidates in its first round.
* C89 (LeximaxPJR.v): a committee without a candidate of an under-represented group can exchange a member of the voter with the largest load (larger than average + 1/total) for that candidate, paid by the group up to the average load; a gap between the loads, wider than the tolerance, exists above the new load (pigeonhole), and the bound at the position of the last load above the gap would have been smaller. Minimax: a concrete profile.
* C90 (ThieleJR.v, ThieleRules.v): JR from `j f(j) <= f(1)`: an excluded candidate of a violating group gains at least f(1) times the group's weight, while removing members costs in total at most f(1) times the weight of the others, so that some member can be exchanged with profit. Necessity: with `f(1) < j f(j)` a block of j candidates beats a group that deserves one seat; with `j f(j) < f(1)` a party that deserves j seats gets fewer against single candidates. Sequential rules: concrete elections found by linear programming, evaluated.
* C91 (Approx.v, ApproxRules.v): submodularity (the score of the optimum exceeds the current one by at most k times the best gain) and induction over the seats; (1 - 1/k)^k <= (m/(m+1))^m by Bernoulli's inequality with m = 100. Representation: the exchange inequality for every outside candidate of the competing committee, summed, and a case distinction per voter.
* C92 (SpecDegree.v, Degree.v): EJR/EJR+: the voters of the group with fewer than j members weigh less than j quotas (otherwise they violate the axiom); summed over j = 1..l. PAV: if the average were at most l-1, the tangent bound 1/(x+1) >= 2/l - (x+1)/l^2 gives a common outside candidate a gain of at least the weight of the group divided by l, at least one quota, while k+1 such gains exceed n by the exchange inequality.
* C93 (SpecCore.v, Core.v): every outside candidate of a PAV committee gains at most n/(k+1) (exchange inequality). If all voters of the group approved more of T than of the committee, the gains of the members of T would sum up to at least the weight of the group. The factor 2 follows by removing the committee from T.
* C94 (SpecStrategy.v, Strategy.v): a dishonest ballot cannot raise the support of an approved or lower that of a disapproved candidate. If the new committee had more approved members, an approved one would have replaced a disapproved one, against these inequalities and the tie-breaking; with resolute=False the two are tied and can be exchanged (induction).
* C81 and additions to C55, C60 (TextLines.v): splitting and joining of lines are inverse; the decimal representation is parsed back.

## 6. Findings (all machine-checked as `_refuted` theorems unless marked *noted*)

1. C03: branch-and-bound prunes winners for geom with base < 1.
2. C05: SAV with integer weights loses ties through float rounding.
3. C13: sequential Phragmén's sentinel values fail for small fractional weights (wrong committee or crash).
4. C15: Equal Shares with increment completion can raise RuntimeError for small weights; C41: it violates JR.
5. C20: E Pluribus Hugo raises IndexError for one candidate and one seat.
6. C34/C56: brute-force EJR/PJR checks ignore voter weights. C35: check_EJR_plus raises KeyError for large quotas.
7. C39: CC (irresolute) contains Pareto-dominated committees (known; the library documents it).
8. C45: fractional weights are lost in Preflib files. C46: YAML files lose candidate names; a file without
   committee size cannot be written again after reading.
9. C47: logged text depends on the verbosity. C59: full_analysis does not restore the verbosity if a check raises.
10. C48: Profile.copy drops candidate names.
11. C52: Monroe and Greedy Monroe violate PJR if the committee size does not divide the number of voters (known).
12. C53: minimax/leximax Phragmén ignore max_num_of_committees when few candidates are approved, raise RuntimeError
    for weights < 1, and their tolerance admits non-optimal committees for large weights.
13. C44: the MIP algorithms reject geom with base <= 1 (`C44_geom_rejected`).
14. C58: read_preflib_file(top_ranks=0) is accepted and gives empty approval sets.
15. C29: Greedy Monroe is not anonymous. C62: maximin support is not homogeneous (absolute tolerance).
16. C64: with more than ten candidates brute-force and branch-and-bound return different committees for resolute=True,
    because committee lists are sorted by their printed text.
17. C60: fixed-size random profiles can have too few approvals because setsize/num_cand is rounded to binary64.
18. C65: the consensus rule violates PJR on party lists. C66: E Pluribus Hugo and reverse-sequential PAV can punish a candidate for
    additional approvals. C67/C69: sequential PAV is neither consistent nor Pareto efficient. C70: SAV, minimax AV and
    E Pluribus Hugo differ from AV for one seat.
19. C72: the YAML writer compares profiles by their text, so a profile with exchanged candidate names is accepted although
    its ballots differ.
20. C74: the brute-force EJR/PJR checks print the wrong group in their explanation; with Fraction weights and Python < 3.12 a
    failing check raises TypeError after printing its verdict. C75: check_priceability raises ValueError when it prints the
    payments of nobody.
21. C78: sequential Phragmén announces the load k + 1 for unapproved candidates; reverse sequential rules report no ties of two
    candidates and label every score "PAV-score"; the second phase of Equal Shares calls minus the unspent budget "budget spent";
    lexminimaxav runs the distances of several committees together.
22. C80: the absolute tolerance 1e-12 of the default algorithm makes sequential Phragmén treat candidates with 1000000 and
    1000001 supporters as tied and elect the one with fewer (also: the result changes when all weights are multiplied).
23. *noted*: C07's irresolute list may contain duplicates if Python iterates equal sets in different orders
    (the theorem for canonical iteration order is C07_revseq, for arbitrary order C07_revseq_any_iteration_order);
    `compute_thiele_method("atleastN")` raises UnknownRuleIDError; `completion.lower == "none"` compares a method;
    add_voters is not atomic.
24. C88: with resolute=True, branch-and-bound can elect an additional candidate that nobody approves instead of one it elected
    before ("{0, 10}" is printed before "{0, 1}"); the irresolute results agree.
25. C89/C90: minimax Phragmén, sequential and reverse sequential PAV, the sequential 2-geometric rule, minimax AV, lexminimax AV, SAV and E Pluribus Hugo
    can return committees that fail the library's own check for justified representation (known for most of these rules;
    concrete elections).

## 7. Testing the theorems against wrong programs

`seeded/LOG.jsonl` lists edits of model definitions (one realistic bug each), made in a scratch copy, the claim each breaks
and the theorems that no longer prove. Edits that survived led to the tightenings listed there.
