{
 "C01": {
  "status": "proved",
  "note": "All lengths and values; canonical numerals; the sign-after-blank defect is a refuted theorem. Printing of the zero with negative sign flag gives \"-0\"."
 },
 "C02": {
  "status": "proved",
  "note": "Also as part of arbitrary +,* histories."
 },
 "C03": {
  "status": "proved",
  "note": "Exact characterisation incl. the defect x-(-x)=0."
 },
 "C04": {
  "status": "proved",
  "note": "Positive cases proved, non-canonical results of - and / refuted with witnesses and their visible consequences."
 },
 "C05": {
  "status": "proved",
  "note": "Schoolbook and Karatsuba; UB witness for zero halves."
 },
 "C06": {
  "status": "proved",
  "note": "Knuth D incl. qhat bound, add-back; exact long division is UB for every such pair."
 },
 "C07": {
  "status": "proved",
  "note": ""
 },
 "C08": {
  "status": "proved",
  "note": "Both directions on canonical operands; non-canonical zero witness refutes the unrestricted claim."
 },
 "C09": {
  "status": "proved",
  "note": ""
 },
 "C10": {
  "status": "proved",
  "note": "Complete characterisation: returns the gcd or is UB."
 },
 "C11": {
  "status": "proved",
  "note": ""
 },
 "C12": {
  "status": "proved",
  "note": ""
 },
 "C13": {
  "status": "proved",
  "note": ""
 },
 "C14": {
  "status": "proved",
  "note": ""
 },
 "C15": {
  "status": "proved",
  "note": "size estimate: exact rational quotient instead of the double one (argued equal in the model comment)"
 },
 "C16": {
  "status": "proved",
  "note": ""
 },
 "C53": {
  "status": "proved",
  "note": ""
 },
 "C17": {
  "status": "proved",
  "note": "All widths; both the deterministic and the randomised test."
 },
 "C18": {
  "status": "proved",
  "note": "Complete sweep over the smallest prime factor with the order of 2, computed in the kernel (vm_compute)."
 },
 "C19": {
  "status": "proved",
  "note": ""
 },
 "C20": {
  "status": "proved",
  "note": "Termination is C66; std::sqrt of n < 100000 modelled as the integer square root."
 },
 "C21": {
  "status": "proved",
  "note": ""
 },
 "C22": {
  "status": "proved",
  "note": "Histories by induction over arbitrary operation sequences."
 },
 "C23": {
  "status": "proved",
  "note": "Negative denominators and unreduced texts are refuted witnesses."
 },
 "C24": {
  "status": "proved",
  "note": "Complete: exact on same-sign denominators, reversed on opposite signs."
 },
 "C25": {
  "status": "proved",
  "note": ""
 },
 "C26": {
  "status": "proved",
  "note": "Relative to stated assumptions on std::pow (consistent: witness ideal_pow)."
 },
 "C27": {
  "status": "proved",
  "note": "pow can produce a zero denominator (C26)."
 },
 "C54": {
  "status": "proved",
  "note": "std::gcd/std::lcm are taken as the mathematical functions with overflow as UB."
 },
 "C55": {
  "status": "proved",
  "note": ""
 },
 "C28": {
  "status": "proved",
  "note": "For every factorisation result factorize can give; the undefined read is shown harmless; index 0 and radicand <= 0 are separate theorems."
 },
 "C29": {
  "status": "proved",
  "note": "Normal form, uniqueness, and == decides equality for any two histories; inverse()/pow(-n) results are not normal (refuted). Factorisation into primes is assumed (fac_exact) and proved for the standard environment below 9006401."
 },
 "C30": {
  "status": "proved",
  "note": "Single operations and arbitrary histories; floating std::pow is modelled where exact (integers up to 2^53)."
 },
 "C31": {
  "status": "proved",
  "note": "Exact when it returns; throws exactly when the radical parts differ; 0+sqrt(2) refuted."
 },
 "C32": {
  "status": "proved",
  "note": "<, > for histories with positive denominators; negative denominators refuted."
 },
 "C56": {
  "status": "proved",
  "note": "to_string injective on normal forms; LaTeX index defect refuted."
 },
 "C33": {
  "status": "proved",
  "note": "Values over Coq reals; a Poly result whose computation overflows stops (Ub) in the model and is outside the claim."
 },
 "C34": {
  "status": "proved",
  "note": "Value preservation for every permutation the sort may leave; like terms merged with a sorted output; general distinctness refuted."
 },
 "C35": {
  "status": "proved",
  "note": "n! representable => exact; 64 bit: n<=20. n=21 refuted by computation. Every exponent: the result is f/n! times the power, f = n! wrapped to T (C35_every_exponent), so exact iff n! is representable or the value is 0 (C35_exactly); 0 from n = 66 on."
 },
 "C36": {
  "status": "proved",
  "note": "Exact enumeration, no duplicates, m>=2; m=1 never returns."
 },
 "C37": {
  "status": "proved",
  "note": "Term, Poly and Frac substitution."
 },
 "C38": {
  "status": "proved",
  "note": "All histories of + - * / on fractions, at every assignment with nonzero denominators."
 },
 "C39": {
  "status": "proved",
  "note": "normalize preserves value; g % 0 reachable (refuted witness)."
 },
 "C52": {
  "status": "proved",
  "note": "Term product, power, negate: value and exponents."
 },
 "C57": {
  "status": "proved",
  "note": "eval/try_eval exact; constant irrational polynomial refuted."
 },
 "C40": {
  "status": "proved",
  "note": "For every derivation of the grammar (ParserSpec.derives), by induction; tokens and text."
 },
 "C41": {
  "status": "proved",
  "note": "All token lists; acceptance of malformed texts refuted by witnesses."
 },
 "C42": {
  "status": "proved",
  "note": "All texts; decimal literals through the abstract function dec."
 },
 "C43": {
  "status": "proved",
  "note": "All trees of any depth over integers and symbols; odd one-character names refuted."
 },
 "C44": {
  "status": "proved",
  "note": "All trees, all assignments with the definedness conditions of ExprSpec.edefined; exponent with denominator -1 refuted."
 },
 "C45": {
  "status": "proved",
  "note": "Witness with real values, and the positive theorem under leaves_read."
 },
 "C46": {
  "status": "proved",
  "note": "All finite doubles; refuted witnesses for shortest-ness and for inf/NaN. Bits-to-double reinterpretation is modelled arithmetically."
 },
 "C47": {
  "status": "proved",
  "note": "Exact characterisation incl. the integer-branch defect."
 },
 "C48": {
  "status": "proved",
  "note": "Table copied verbatim; every entry checked by kernel computation, lifted to a universally quantified statement."
 },
 "C51": {
  "status": "proved",
  "note": "Heap model with refinement to value semantics for every program without operator-to-operator assignment; that assignment is shown undefined from every reachable state; parser leaks counted exactly. C51_redefinition covers the map assignment in the command line."
 },
 "C49": {
  "status": "proved",
  "note": "Exact case split over all lines; defects (double evaluation, ignored rest of a call, empty name) as refuted witnesses. std::cout, std::getline and long double are abstract."
 },
 "C50": {
  "status": "proved",
  "note": "Invariant over all sessions; escaping exceptions characterised exactly; redefinition UB taken from C51_redefinition."
 },
 "C59": {
  "status": "proved",
  "note": "For T a machine integer; bad_alloc not modelled."
 },
 "C60": {
  "status": "proved",
  "note": ""
 },
 "C61": {
  "status": "proved",
  "note": "Exactness theorem instantiates the floating-point type with the real numbers; leaf powers of nonpositive numbers only with integer exponents."
 },
 "C62": {
  "status": "proved",
  "note": ""
 },
 "C63": {
  "status": "proved",
  "note": "Value theorem under the same definedness conditions as C38/C41."
 },
 "C64": {
  "status": "proved",
  "note": "std::getline modelled as: lines, then empty (or the unterminated last line for ever)."
 },
 "C58": {
  "status": "proved",
  "note": "Poly, Frac and tree texts under the stated shape conditions, the simplify-print-read chain, and refuted theorems with values for the shapes that do not read back."
 },
 "C65": {
  "status": "proved",
  "note": "Any binary format with good_format; std::stold is taken as correctly rounded; literals with an exponent, hexadecimal, inf and nan are not modelled. The loss of the last unit is a refuted theorem with witnesses."
 },
 "C66": {
  "status": "proved",
  "note": "Fair source: draws of the listed kind recur (implied by all values recurring). The measure-theoretic step from uniform draws to fairness is not formalised; the code seeds a fresh mt19937 with one 32-bit number per draw, so a large range need not be covered completely, which is why fairness asks for lucky draws only."
 },
 "C67": {
  "status": "proved",
  "note": "Floating-point numbers are exact values with rounding to nearest, ties to even, unbounded exponents; std::pow is a parameter with its accuracy as a hypothesis, shown satisfiable."
 },
 "C68": {
  "status": "proved",
  "note": "As C67; the class of expressions is the inductive `steps`. The loss under subtraction is a refuted theorem with a witness."
 },
 "C69": {
  "status": "proved",
  "note": "Over histories of Real operations with the modelled factorize (fac_sound, fac_exact as in C29-C31)."
 },
 "C70": {
  "status": "proved",
  "note": "Both directions: soundness through reading the text back, completeness through the linear independence of monomials on positive assignments; quotients refuted with texts."
 },
 "C71": {
  "status": "proved",
  "note": "Exact zero test in both directions; the domain claim rests on exponential sums having finitely many zeros along a path (RatfunProofs1). The two defects are witnesses."
 },
 "C72": {
  "status": "proved",
  "note": "Both the positive classes and the printing defects outside them are theorems (the defects as witnesses). The reader of TeX formulas is TexSpec.read_tex, a function written from the notation."
 },
 "C73": {
  "status": "proved",
  "note": "Exact for parsing (iff), one direction for the operations; the converse is refuted by x^0."
 },
 "C74": {
  "status": "proved",
  "note": "Exact for ++; -- characterised incl. the two defects (at -1, and the leading zero digit)."
 },
 "C75": {
  "status": "proved",
  "note": "Simulation plus exact characterisation of integer powers; roots and comparisons beyond 53 bits by witnesses."
 },
 "C76": {
  "status": "proved",
  "note": "Sufficient bounds, operation by operation; the bounds are not claimed to be necessary, overflow outside them is shown by witnesses."
 },
 "C77": {
  "status": "proved",
  "note": "GCC's spelling of function_name() is an assumption visible in the statement of C77_nameof_gcc_refuted."
 },
 "C78": {
  "status": "proved",
  "note": "Only the text is a fixed point, not everything the command line prints: terms with coefficient 0 are kept, so the value behind \" = \" may appear for a line and not for its answer."
 },
 "C79": {
  "status": "proved",
  "note": "All operators as programs; the alias-unsafe ones (Poly/Frac += itself, Frac /= itself, Poly /= own coefficient) characterised exactly, with _refuted witnesses."
 },
 "C80": {
  "status": "proved",
  "note": "Strong guarantee for all types but Frac; for Frac old-or-result value plus the usable invariant, and a witness that it changes. Poly /= its own coefficient is covered by C79 only."
 },
 "C81": {
  "status": "proved",
  "note": "Where the comparator returns (it may overflow). The root index is bounded by index^2 < 2^w. Witnesses that the precondition fails over negative denominators, one of them typed."
 },
 "C82": {
  "status": "proved",
  "note": "The readers are modelled a second time, with positions and checked accesses, and proved to refine the models used elsewhere. Witnesses for accepted texts with invalid <cctype> calls."
 },
 "C83": {
  "status": "proved",
  "note": "The loops are modelled a second time, with iterators as positions, and proved equal to the models used elsewhere; termination is part of the equality (explicit step budget). Iterators are positions because each loop has one iterator into the container it changes and takes the one erase returns."
 },
 "C84": {
  "status": "proved",
  "note": "Where the comparison returns (it may overflow). Witness that the order is not weak."
 },
 "C85": {
  "status": "proved",
  "note": "Exact characterisation of two unfinished functions."
 },
 "C86": {
  "status": "proved",
  "note": "Simulation from the exact models to the models with doubles, definition by definition (LiftModel.v), and equality of the two without roots and powers. C86_decides and C86_fixed_point carry C70 and C78 over."
 },
 "C87": {
  "status": "proved",
  "note": "Simulation, command by command, over C86 (CliLiftModel.v repeats the commands over the expressions with doubles); the text condition is proved through the tokenizer and the parser."
 },
 "C88": {
  "status": "proved",
  "note": "Over the value theorems of C34-C36 and C44: substitute and normalize are followed step by step through the formula (frac_subst, frac_pow, apply_op), the values are those of Binet's formula in R, which is proved by induction; C88_start computes the tree the 64-bit program starts with, C88_line states it for the typed line, C88_doubles for doubles (through C87), C88_overflow_refuted where it ends."
 },
 "C89": {
  "status": "proved",
  "note": "C89_even and C89_even_abs give the value of the even case, C89_odd excludes all odd cases but one family, C89_no_root and C89_radicand follow; C89_odd_refuted and C89_line_refuted compute what that family returns. The value the excepted family returns is not characterised beyond these witnesses (the radicand then has a negative denominator and denotes no real number)."
 },
 "C90": {
  "status": "proved",
  "note": "StoldModel.v is the whole grammar of std::stold (decimal and hexadecimal). The assumptions on the machine are those of C65: correct rounding, glibc's range errors; a hexadecimal number below the normal range is Ub 'not modelled'."
 }
}