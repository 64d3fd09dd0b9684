# Formal model of caozhanhao/symxx in Rocq (Coq 8.16.1)

The code (header-only C++20, /repo/include/symxx/*.hpp) is read as text; it is never built or run.
The tie between model and code is the citation comment (file and lines) on every definition of a `*Model.v` file.

## 1. Layout

| files (rocq/theories) | contents |
|---|---|
| `Base.v` | outcome monad `res` (`Ok`, `Throw`, `Ub`, `Fuel`), machine-integer helpers (`u32`, `u64`, `swrap`, `chk`) |
| `XxxModel.v` | executable Gallina model of one header; definitions only, each with a citation |
| `XxxSpec.v` | the small independent specification the theorems are stated with (values in Z, Q or R, grammar, predicates) |
| `XxxProofs*.v` | lemmas |
| `XxxProps.v` | the property theorems only, each closed by `exact` or a short proof, followed by `Print Assumptions`; beside each an `Example` meeting its hypotheses |

| module | header | claims |
|---|---|---|
| Huge (`HugeModel`, `HugeSpec`, `HugeProofs1-8`, `HugeHistory`, `HugeProps`, `HugeStepProps`) | huge.hpp | C01-C12, C74 |
| Adapter | int_adapter.hpp | C13-C16, C53, C54 |
| Factorize (+ `Fermat.v`: Fermat's little theorem, order of an element, square roots of one) | factorize.hpp | C17-C21, C66 |
| Rational | num.hpp 58-327 | C22-C27, C55 |
| Real (+ `Valuation.v`: p-adic valuations) | num.hpp 346-723 | C28-C32, C56 |
| Poly | frac.hpp | C33-C39, C52, C57 |
| Expr, Parser, Text, Print | expr.hpp, parser.hpp, text functions of frac.hpp and num.hpp | C40-C45, C58 |
| Dbl | num.hpp 346-602, int_adapter.hpp adapter_pow: Real with double arithmetic | C75 |
| Lift | frac.hpp, expr.hpp, parser.hpp once more, over the Real of Dbl | C86 |
| CliLift | cli.hpp once more, over the expressions of Lift | C87 |
| PowWrap | frac.hpp 466-500: the factorial of Poly::pow beyond the representable ones (no further code) | C35 |
| Fib | cli.hpp 41-45: the body of the built-in fib as the start state holds it (no further code) | C88 |
| NegPow | num.hpp 469-491, 538-597, 609-615 again (no further code) | C89 |
| Stold | num.hpp 127-159 with std::stold on every text (C locale) | C90 |
| RealDef | num.hpp 346-602 Real: when the operations return | C76 |
| Msg | error.hpp, utils.hpp: error texts, assertions, nameof | C77 |
| Alias | the compound assignment operators of huge.hpp, num.hpp, frac.hpp as statement sequences on an object that may be its own argument | C79, C80 |
| Sort | no new model: the comparator of Poly::normalize (PolyModel.v, `term_before`) against the precondition of std::sort | C81 |
| Scan | the readers of parser.hpp, cli.hpp and Huge(const std::string &) again, with positions: checked s[i], substr, find_first_of and <cctype> calls | C82 |
| Iter | the loops of frac.hpp, num.hpp and dtoa.hpp that change a container while walking over it, with iterators as positions | C83 |
| Rest (and `HugePowProps`) | Term::operator< (frac.hpp), Huge::pow and digits_pow (huge.hpp) | C84, C85 |
| Dtoa (+ `DtoaTable.v`) | dtoa.hpp | C46-C48 |
| Dec | num.hpp 33-56, 97-159: decimal literals, floating-point construction | C65 |
| Num | huge.hpp 781-792, 946-953, num.hpp 274-278, 659-709: conversions; long double for the CLI's evaluation | C67, C68, C69 |
| Ring | frac.hpp and expr.hpp on polynomial expressions (no new model; specification and proofs only) | C70 |
| Idem | reading, simplifying and printing polynomial expressions, twice (no new model) | C78 |
| Ratfun | frac.hpp and expr.hpp on quotients, literal powers and roots of symbols (no new model; specification and proofs only) | C71 |
| Tex | to_tex of num.hpp, frac.hpp, expr.hpp (no new model; a reader of TeX formulas as specification) | C72 |
| Names | parser.hpp, frac.hpp, expr.hpp: which symbols occur (no new model; specification and proofs only) | C73 |
| Own | ownership of expr.hpp / parser.hpp nodes | C51 |
| Err | exceptions of all of the above | C59, C60 |
| Cli (`CliProps`, and `CliMsgProps` for the messages of refused lines and the members at the start) | cli.hpp, and the long double evaluation of frac.hpp / expr.hpp | C49, C50, C61-C64 |

Outcomes: undefined behaviour is the distinct outcome `Ub`; a C++ exception is `Throw msg`; a loop whose termination in C++ is not
structural runs on explicit fuel and returns `Fuel` when it is exhausted (no theorem treats `Fuel` as a result; termination theorems show that
the stated fuel suffices).

The code has many defects. A property that the shipped code violates is stated as an exact characterisation: the strongest positive
theorem, and next to it a `..._refuted` theorem with a concrete witness on which the naive reading fails. `properties.jsonl` words the property that way.

## 2. Trusted base

* Coq 8.16.1's kernel (including its `vm_compute` machine, used for C18, C48 and the concrete examples and witnesses), and that `coqchk`
  accepts the compiled files (run by `vcheck`).
* `Print Assumptions`: `ASSUMPTIONS.md`, generated by `tools/assumptions.py`, lists the result for every theorem of `MANIFEST.json`. Most are closed under
  the global context. Those that speak about real values (Real, Poly, Frac, expressions) use the axioms of the standard library's `Reals` and nothing else:
  `ClassicalDedekindReals.sig_forall_dec`, `ClassicalDedekindReals.sig_not_dec`, `FunctionalExtensionality.functional_extensionality_dep`,
  `Classical_Prop.classic`. There is no axiom, parameter, functor or module type of our own.
* That the Gallina definitions say what the cited C++ lines say (read by eye; see the simplifications below).
* That the statements in `XxxProps.v` / `XxxSpec.v` say what `properties.jsonl` says.

## 3. What is modelled and what is not

**General.** T is a machine integer of `w` bits (`w` is a parameter; overflow of a signed operation is `Ub`). Memory exhaustion and
failing streams are not modelled. Text is a list of characters. The locale is "C".

| header | modelled | simplified or left out |
|---|---|---|
| huge.hpp | all of Huge and nt::: construction, text, + - * (schoolbook, Karatsuba), Knuth division, comparison, gcd, conversions, divrem | fewer than 2^30 digits (the `int` casts at 130, 206, 299); `operator<<`/`>>` on streams only through the text functions |
| int_adapter.hpp | everything for machine integers and __int128 text | 128-bit size estimate: exact quotient instead of the double one (argued in the comment) |
| factorize.hpp | everything for machine integers, with and without SYMXX_ENABLE_INT128 | `SYMXX_ENABLE_HUGE` branches (66-68, 78-87, 256-258, 271-276); the random source is an arbitrary stream, over which theorems quantify; `std::sqrt` below 100000 is the integer square root |
| num.hpp, Rational | everything except the next column | construction from floating point and from decimal text: `DecModel.v` (any binary format; `std::stold` correctly rounded; digits and dots), `StoldModel.v` (every text); T = Huge does not compile (`adapter_lcm` has no Huge overload, `huge_range` in factorize.hpp is undeclared); `std::pow` is the parameter `fp` with the assumption `pow_exact` (shown consistent) |
| num.hpp, Real | everything; `to` in `NumModel.v` (`try_to` of an arithmetic type is the same value in a `unique_ptr`; the `try_to` overload for Rational, 704-709, does not compile when instantiated) | `factorize` through the environment `efac` (any result `factorize` can give); the read of `factors.begin()` of an empty map is an arbitrary number (shown harmless); double arithmetic where it is exact (integers up to 2^53), elsewhere `Ub "inexact"`; `DblModel.v` is Real again with every double operation, `std::pow` any faithful function (C75: the two agree wherever RealModel.v says what happens) |
| frac.hpp | Term, Poly, Frac: arithmetic, normalisation, powers, substitution, evaluation (exact and long double), text | `std::sort` is any permutation (or any sorted permutation; C81 derives that from std::sort's promise); `std::map` is its list of entries; `Poly operator/(Real)` does not compile when instantiated; aliased arguments in AliasModel.v (C79), the other models take two values |
| expr.hpp | trees, evaluation, normalisation, substitution, text; nodes and pointers separately in `OwnModel.v` | freed cells are never reused (so use after free is always visible); the value inside a Frac has no memory |
| parser.hpp | tokenizer, shunting-yard, tree construction | literals with '.' through a function `dec`; C65 takes `DecModel.dec_of` for it |
| dtoa.hpp | all of Grisu2 and the layout on bit patterns; `k_comp`'s double arithmetic with Coq's `SpecFloat` | nothing |
| cli.hpp | the whole command loop as a step function; `std::getline` | long double is an abstract type (C49-C64), and for C68 the numbers of `p` bits; of std::cerr only the message (no colours, no source location) |
| error.hpp, utils.hpp | everything (`MsgModel.v`); elsewhere an Error is its message | the compiler's `source_location` is a parameter |

## 4. How each property is proved

* **C01-C12 Huge**: little-endian `list Z` of 30-bit digits, with explicit `mod 2^32`/`mod 2^64` wherever the C++ type wraps. Specification: `dval` (value of a
  digit list) and Z arithmetic. Induction over digit lists; Knuth D by the quotient-digit bound and the add-back case; Karatsuba by strong induction. `back()` of an empty
  vector is `Ub`. Histories of + and * by induction.
* **C13-C16, C53, C54 int_adapter**: Z with a width check on each signed operation.
* **C17-C21 factorize**: the tests verbatim over Z; random source universally quantified. C17: Fermat and square roots of one. C18: kernel computation
  over smallest prime factors, lifted by a sieve argument to all n < 9006403. C19-C20: witnesses by computation plus the inductive theorem.
* **C66 termination of factorize**: pigeonhole and Floyd's cycle argument for each round; an explicit hit (c = p, or c = p - 2 for n = p^2) for each composite; induction on n for fair sources.
* **C22-C27, C55 Rational**: specification in Q; histories by induction over arbitrary operation sequences; overflow is the only other outcome.
* **C28-C32, C56 Real**: values in Coq's reals; the factor multiset is any `factorize` can return; uniqueness of the normal form by valuations.
* **C33-C39, C52, C57 Term/Poly/Frac**: values in R under assignments of positive reals; the sort is any permutation. For C35 the whole exponent range is followed: the multinomial loop's factorials wrap to f, the divisions n!/k! are over rationals whose product is f/n! times the power; 2^64 divides n! from n = 66 on.
* **C40-C45, C58 text**: tokens and shunting-yard over lists, the grammar as an inductive relation; printer verbatim; the round trip by induction over the printed structure.
* **C65 decimal literals**: round-to-nearest-even over Q with `p` bits; error analysis of the repeated multiplication by ten and of the epsilon comparison; literals with more places than T's digits10 go through the rounding function first.
* **C69 rationality**: every result of a history is a normal form or the reciprocal of one (`nearly`); the uniqueness of normal forms (C29) turns a rational value into index 1.
* **C70 canonical form**: integer-coefficient polynomials are closed under the operations (a Hoare-style closure: coefficients, exponents, strictly descending monomials; `RingProofs2-4`); monomials are linearly independent over positive assignments (`RingProofs1`: a leading-term argument with one fast-growing variable after another), so equal functions have the same non-zero terms, in the same order, and printing skips the zero ones (`RingProofs5`); the least machine number cannot be a coefficient, so printing is total (`RingProofs6`) and C58 reads the text back. Totality (`RingProofs7-11`): forward lemmas for every operation on integer polynomials under a weight (sum of absolute coefficients, each at least 1) and degree invariant; for powers the multinomial terms add up to the power of the weight, and the successive divisions by 1..k stay integral. The sort is assumed to return when all comparisons do (`sort_returns`, proved for the insertion sort).
* **C71 zero test**: sums of rational multiples of power products are closed under the operations (`RatfunProofs2-4`); the value of such a sum along the path between two positive points is an exponential sum, which is zero everywhere or non-zero from some point on, so finitely many sums that are each non-zero somewhere are non-zero together (`RatfunProofs1.all_nonzero`); with the independence of monomials (C70) and the value theorem of expressions this gives the domain and zero theorems (`RatfunProofs5`), and the texts of zero are characterised in `RatfunProofs6`.
* **C72 TeX**: `TexSpec.read_tex` is a tokenizer and a recursive-descent reader for formulas; every piece of printed text is shown to be read as the expected kind of phrase (base, factor, product, sum, signed sum) whatever follows it (`TexProofs1`, combinators with explicit recursion bounds), then numbers, symbols and terms (`TexProofs2`) and polynomials, fractions, trees (`TexProofs3`). The simplified case combines it with C70 and C73.
* **C73 names**: one induction over all operations for any property of symbol maps that is closed under dropping, merging and scaling entries (`NamesProofs.closed`), used for "names in a set" and for "ascending keys"; the parser through the lexemes (C42) and the operands of the tree (C41).
* **C74 counting**: `times n` iterates ++ or --; ++ by C02 and canonicity by induction, -- by the exact characterisation of subtraction (C03), the alternation at 0 and the walk down from 2^30 by explicit invariants of the digit lists.
* **C75 double arithmetic**: `DblModel.v` replaces each exact step of `RealModel.v` by conversion, rounded operation and conversion back (rounding from `DecModel.v`); `agrees` is a forward simulation proved operation by operation and then by induction over histories. Integer powers: a value with 53 bits above 2^52 is an integer a double holds, so the cast loses nothing and the result equals n^e exactly if n^e is such an integer. A correctly rounded pow satisfies the assumption (`nearest_faithful`); the wrong results are computed with it.
* **C76 returning**: `RealDefProofs1.v`/`2.v` run each loop of `normalize` forwards under bounds (every division is exact because the factor list multiplies to the radicand; the coefficient never exceeds coefficient times radicand), `3.v`/`4.v` the operations; the value comes from C28-C31. `C66` (a fair source ends `factorize`) gives one loop budget that serves every number below 9006401, hence every root of those numbers, also in the model with doubles (through C75).
* **C77 messages**: texts as lists of characters; injectivity by splitting at the first separator; `nameof` with the 64-bit wrap of `npos` made explicit.
* **C78 fixed point**: the pieces of the printed text are shown to be read as phrases of the grammar *and* as polynomial expressions of bounded weight and degree (`IdemProofs1`: the reading argument of C58 with a size, piece by piece); so the answer is again in the domain of C70_total, has the value of the expression by C70_reads_back, and C70_canonical says that its text is the same.
* **C79 aliasing, C80 exceptions**: each compound operator is a program `object -> object * outcome` (assignments, locals, programs on members), the argument a reference read at each statement; `done` of the program is proved equal to the value model operator by operator, for both kinds of argument, so every value theorem carries over to `a op= a` and copy-safety follows; where the two differ the difference is proved exactly (`f /= f` by the values of the polynomials). For C80 `keeps` is composed along the statements: only the first statement can throw (inverse, radicand test, zero test), everything after it is shown not to; for Frac a Hoare-style argument carries the value through the statements of normalize up to the division that throws.
* **C81 comparator of std::sort**: `term_before` is proved to decide the order `precedes` (key comparison, then the real value, by C46's comparison of numbers), which is a strict weak ordering; `sorts` is the promise of std::sort as the comparator's answers on neighbours, and implies `sort_permutes` and `sort_orders`, the hypotheses on the sort of C33–C38 and C70. The two violations are concrete witnesses.
* **C82 reading stays inside the text**: `scan A` adds to `res A` the outcomes `Outside` and `BadChar`; the relation `keeps` (position ↔ rest of the text) is preserved by every loop, which gives `reads_as`: the reader with positions is the reader of the other properties or met a high byte. That accepted expressions make no bad call is a second induction over the token loop.
* **C83 iterators**: each loop is stated with a position and a step budget, every move, dereference and erase checked; generalised over the part already passed (`pre ++ rest`, iterator at `length pre`) it equals the structural model by induction on the rest.
* **C84, C85**: the degree as a sum in Q; the comparison by case analysis with C32 for coefficients. Powers by the canonical form of digit vectors.
* **C86 doubles in expressions**: `LiftModel.v` repeats the definitions of `PolyModel.v`, `ExprModel.v` and `ParserModel.v` over the Real with doubles (C75); `LiftProofs.v` proves `agrees` for each of the 78 definitions by the rule for `bind` and the lemmas before it. `LiftProofs2.v`: on numbers with index 1 and radicand 1 every call of `pow` has exponent 1 and returns before `std::pow`, and the factorisation of 1 is empty, so both models are equal, and such numbers are closed under everything but powers.
* **C87 sessions with doubles**: `CliLiftModel.v` repeats the commands and the loop of `CliModel.v` over `LiftModel.v`; `CliLiftProofs.v` proves for each command that it does the same wherever the exact one is defined, then for a round and, by induction on the number of rounds, for a session. `CliLiftProofs2.v` proves equality for the commands on trees without powers, `CliLiftProofs3.v` that a text without `^`, `**`, `_` gives such a tree (invariants of the token loop and of the two stacks).
* **C88 fib**: `FibSpec.v` writes down the Fibonacci numbers and the simplified body; `FibProofs.v` proves Binet's formula in R by induction and follows substitute through the body with the value theorems of the fractions; `C88_start` computes that the 64-bit program starts with this body. What is printed is the printer's text of a fraction of that value; that this text is the plain decimal numeral is only computed in the examples.
* **C89 fractional powers of negative numbers**: `NegPowProofs.v` follows the sign: only positive numbers are factorised, so a normalisation that returns had a positive radicand; an even power forgets the sign of the fraction under it, which reduces the even case to the opposite base (C30), and an odd power keeps it, so only a negative denominator (left by inverse) raised to an even index gets through.
* **C90 text with a dot**: `StoldModel.v` adds whitespace, exponents, hexadecimal numbers, inf, nan and trailing text to the std::stold of `DecModel.v` and is shown to agree with it where that one says anything; the number is scanned from its spelling (`number_text`), and the value follows from the lemmas behind C65.
* **C67, C68 conversions and accuracy**: the rounding of C65; errors as factors between 1 - u and 1/(1 - u) that multiply along the tree; roots by monotonicity of exp and ln. `std::pow` is a parameter with a
  stated accuracy, shown satisfiable; overflow to infinity and underflow are not modelled.
* **C46-C48 dtoa**: integer model of DiyFp with uint64 wrap; error analysis of the scaled boundaries; the table entry by entry in the kernel, lifted to all exponents.
* **C49, C50, C61-C64 CLI**: step function over the state (variables, constants, functions); invariants over all sessions.
* **C51 ownership**: heap of nodes; refinement to value semantics for every program without operator-to-operator assignment, whose failure is shown separately.
* **C59, C60 exceptions**: for each operation, `Throw msg` implies msg is one of the messages of `symxx::Error`, by going through the model.

Nothing in the list is declared inexpressible. `MANIFEST.json` (generated by `tools/mkmanifest.py`) gives the theorems of each property.

## 5. Testing against wrong programs

`seeded/mutate.py` copies the development, makes one edit in a model definition, rebuilds, and lists the theorems that no longer prove; `seeded/*.json` are the edits and
`seeded/LOG.jsonl` the results, including the theorems that were tightened because an edit survived.

Besides the hand-written edits, a mechanical run (`seeded/auto.jsonl`, one line per edit: file, definition, old and new text, result, first lemma that failed) changed one token of a model definition at a time
(a comparison, a constant, an operator, the order of two arguments), in 642 places where the result still type-checks (566 broke a theorem, 15 an example beside one, 3 ran out of time, 58 survived). The survivors were read one by one: they change the text of an `Ub` outcome, raise a fuel bound, or give an
equal function (for example `<?` for `<=?` where equality is excluded, swapped arguments of a commutative operation); those that were none of these led to tightened theorems
(C28_nth_root, C65_out_of_range, C62_start, the error texts of the command line, C74 negation and one, the printers of C72, C19_first_base_decides, C19_bases, C53_stoll, C67_rational_int_least, C46_sign_of_not_finite).
