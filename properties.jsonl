{"id": "C01", "title": "Huge: decimal text round-trips", "statement": "Constructing a Huge from a decimal numeral (optional leading sign, any number of digits) gives exactly the integer the numeral denotes, printing a Huge gives the canonical decimal numeral of its value, and parse-then-print / print-then-parse are the identity on canonical numerals / on values.", "quantifier": "every decimal string of any length, every well-formed Huge of any number of 30-bit digits", "why_tests_cant": "strings and digit vectors are unbounded; chunk boundaries (9 digits, 30 bits) interact in ways sampling misses", "anchors": ["include/symxx/huge.hpp: Huge(const std::string&)", "include/symxx/huge.hpp: to_string"]}
{"id": "C02", "title": "Huge: addition is exact", "statement": "For canonical Huge operands of any size and sign, a + b (and +=) denotes exactly the integer sum.", "quantifier": "all pairs of canonical Huge values", "why_tests_cant": "unbounded sizes, every carry chain and sign combination", "anchors": ["include/symxx/huge.hpp: operator+=", "include/symxx/huge.hpp: digits_add", "include/symxx/huge.hpp: digits_sub"]}
{"id": "C03", "title": "Huge: subtraction is exact except on opposite operands", "statement": "For canonical operands a - b denotes the integer difference whenever it is not the case that b = -a with a != 0; in exactly that case the shipped code returns 0 instead of 2a.", "quantifier": "all pairs of canonical Huge values", "why_tests_cant": "unbounded; the failing set is a measure-zero diagonal random tests do not hit", "anchors": ["include/symxx/huge.hpp: operator-="]}
{"id": "C04", "title": "Huge: canonical representation", "statement": "Values produced by parsing, by integer conversion, by same-sign addition and by multiplication have no leading zero digit; mixed-sign addition, subtraction and division by a one-digit number may return a non-canonical vector, after which == and < and further arithmetic give wrong answers.", "quantifier": "all canonical operands; exists for the refuted part", "why_tests_cant": "must hold after every operation history", "anchors": ["include/symxx/huge.hpp: digits_sub", "include/symxx/huge.hpp: digits_divrem_by1", "include/symxx/huge.hpp: digits_cmp"]}
{"id": "C05", "title": "Huge: multiplication is exact", "statement": "Whenever multiplication (schoolbook below 70/140 digits, Karatsuba above) returns, the result denotes the product, is canonical, and the sign is right; its only other outcome is reading back() of an empty vector (undefined behaviour); it always returns when the smaller operand has at most 70 digits (or both are equal with at most 140 digits); above that the undefined outcome is reachable, e.g. squaring 2^4500.", "quantifier": "all pairs of canonical Huge values of any length", "why_tests_cant": "Karatsuba recursion depth and split patterns are unbounded", "anchors": ["include/symxx/huge.hpp: digits_mul", "include/symxx/huge.hpp: digits_simple_mul", "include/symxx/huge.hpp: helper::k_mul_split", "include/symxx/huge.hpp: helper::digits_inplace_add", "include/symxx/huge.hpp: helper::digits_inplace_sub"]}
{"id": "C06", "title": "Huge: division yields the Euclidean quotient and remainder", "statement": "For canonical a, b with b != 0 the magnitude division returns q, r with |a| = q|b| + r and 0 <= r < |b|, unless |b| has at least two digits, |b| divides |a| and |a| != |b|, in which case the code evaluates back() on an empty vector (undefined behaviour).", "quantifier": "all canonical operands of any length", "why_tests_cant": "quotient-digit overestimate happens with probability about 2^-29; unbounded lengths", "anchors": ["include/symxx/huge.hpp: digits_divrem", "include/symxx/huge.hpp: digits_divrem_by1", "include/symxx/huge.hpp: helper::digits_left_shift", "include/symxx/huge.hpp: helper::digits_right_shift"]}
{"id": "C07", "title": "Huge: operator/ and operator% truncate towards zero", "statement": "a / b is the quotient rounded towards zero and a % b has the sign of a, with a = (a/b)*b + a%b, on every pair where division is defined.", "quantifier": "all canonical operands, all sign combinations", "why_tests_cant": "unbounded operands and sign combinations", "anchors": ["include/symxx/huge.hpp: operator/=", "include/symxx/huge.hpp: operator%="]}
{"id": "C08", "title": "Huge: division by zero is always reported", "statement": "/, %, and divrem by a canonical Huge equal to zero throw the division-by-zero Error and never return a value, for every dividend, and division by a nonzero Huge never throws; a zero produced by a cancelling subtraction may keep zero digits and dividing by it is undefined instead.", "quantifier": "all dividends", "why_tests_cant": "must hold for every dividend", "anchors": ["include/symxx/huge.hpp: operator/=", "include/symxx/huge.hpp: operator%=", "include/symxx/huge.hpp: divrem"]}
{"id": "C09", "title": "Huge: comparison is the integer order", "statement": "For canonical operands ==, !=, <, <=, >, >= agree with the order of the integers denoted (including +0 and -0).", "quantifier": "all pairs of canonical Huge values", "why_tests_cant": "total-order laws quantify over all values", "anchors": ["include/symxx/huge.hpp: digits_cmp", "include/symxx/huge.hpp: operator<"]}
{"id": "C10", "title": "Huge: gcd", "statement": "gcd of canonical operands returns exactly the gcd and terminates whenever one operand is zero, the magnitudes are equal, or the gcd is below 2^30; in every other case it is undefined behaviour (an exact long division).", "quantifier": "all pairs of canonical Huge values", "why_tests_cant": "Euclid's recursion depth is unbounded", "anchors": ["include/symxx/huge.hpp: digits_gcd", "include/symxx/huge.hpp: digits_rem"]}
{"id": "C11", "title": "Huge: integer conversions", "statement": "For U of any width up to 64 bits: Huge(n).to<U>() == n for every n of U except the minimum of a signed U (undefined behaviour); any canonical Huge inside the range of U converts exactly; negative to unsigned throws; magnitudes from 2^(30*(w/30+1)) up throw; everything below that bound is converted modulo 2^w without notice (undefined for a negative number congruent to the minimum of a U of 32 bits or more).", "quantifier": "every value of every built-in integer width", "why_tests_cant": "the value space is 2^64 and the failing points are isolated", "anchors": ["include/symxx/huge.hpp: digits_from_int", "include/symxx/huge.hpp: internal_to"]}
{"id": "C12", "title": "Huge: divrem identity", "statement": "divrem(a,b) returns (q,r) with a = q*b + r for every non-negative dividend where division is defined; for a negative dividend with a nonzero remainder the remainder has the wrong sign.", "quantifier": "all canonical operands", "why_tests_cant": "unbounded operands", "anchors": ["include/symxx/huge.hpp: divrem"]}
{"id": "C13", "title": "Modular multiplication", "statement": "adapter_mulmod(a,b,m) = a*b mod m for all a >= 0 and b, m up to 2^(w-2) on a w-bit signed type (no overflow there); for larger moduli the shift wraps silently and the result can be wrong or undefined.", "quantifier": "all arguments, all type widths", "why_tests_cant": "loop count depends on the data; overflow region is at the extreme of the type", "anchors": ["include/symxx/int_adapter.hpp: adapter_mulmod"]}
{"id": "C14", "title": "Modular exponentiation", "statement": "adapter_modpow(base,exp,m) = base^exp mod m whenever it returns, for all base>=0, exp>=0, m>1; it always terminates, and never overflows on a w-bit signed type when (m-1)^2 < 2^(w-1); above that overflow (undefined behaviour) is reachable.", "quantifier": "all arguments, all type widths", "why_tests_cant": "loop count depends on the data", "anchors": ["include/symxx/int_adapter.hpp: adapter_modpow"]}
{"id": "C15", "title": "128-bit integer printing", "statement": "adapter_to_string of a positive 128-bit integer is its canonical decimal numeral; 0 prints as the empty string, a negative number prints '-' then possibly a NUL character then the numeral of its magnitude (exactly when the size estimate is one too large), the minimum is undefined; the unsigned version is right below 2^127 and writes out of bounds for the top 2^100 values.", "quantifier": "every 128-bit integer", "why_tests_cant": "2^128 values; the size estimate uses a floating constant", "anchors": ["include/symxx/int_adapter.hpp: adapter_to_string(__int128_t)", "include/symxx/int_adapter.hpp: adapter_bit_width"]}
{"id": "C16", "title": "128-bit integer parsing", "statement": "adapter_to_int<__int128_t> of a string of decimal digits is the number denoted if it is below 2^127 and undefined behaviour otherwise; the unsigned version is the number modulo 2^128; print-then-parse is the identity on positive numbers; a leading minus sign is not understood.", "quantifier": "every digit string", "why_tests_cant": "unbounded strings", "anchors": ["include/symxx/int_adapter.hpp: adapter_to_int128"]}
{"id": "C17", "title": "Primes are never rejected", "statement": "is_prime(p) never returns false for a prime p: in a type of w bits, for p <= 2^(w-2), it returns true or overflows a signed intermediate product; when (p-1)^2 fits in T it returns true. The same for is_prime(p, true) whatever is drawn. (is_prime<int>(100003) does overflow.)", "quantifier": "every prime, every type width, every random sequence", "why_tests_cant": "infinitely many primes; Fermat/Miller-Rabin reasoning needed", "anchors": ["include/symxx/factorize.hpp: is_prime", "include/symxx/factorize.hpp: is_prime_slow_path", "include/symxx/factorize.hpp: is_prime_fast_path"]}
{"id": "C18", "title": "Primality is exact below 9006403 except at 9006401", "statement": "For every n < 9006403 except n = 9006401 = 1733*5197, whenever is_prime(n) returns, it returns true iff n is prime; it does return for every T of at least 48 bits. is_prime(9006401) is true although it is composite.", "quantifier": "every integer below 9006403", "why_tests_cant": "9 million cases, each needing an independent primality verdict; pseudoprimes are rare", "anchors": ["include/symxx/factorize.hpp: is_prime"]}
{"id": "C19", "title": "Above 9006403 the deterministic witness list is not used", "statement": "For n >= 9006403, is_prime(n) is decided by trial division up to 89 and then by the first base a of the published list for n (2, 7, 61 below 4759123141, else the first k primes for the least k with n < psi_k) whose power a^d mod n is not 1 (n-1 = d*2^s, d odd): true iff that base reaches n-1 in the squaring chain, the rest of the list being ignored. So everything the strong tests to all bases accept is accepted, but the composite 9056501 is accepted too although base 7 of its list refutes it.", "quantifier": "all n >= 9006403; exists a composite", "why_tests_cant": "strong pseudoprimes are extremely rare", "anchors": ["include/symxx/factorize.hpp: is_prime_fast_path"]}
{"id": "C20", "title": "factorize multiplies back", "statement": "Whatever random numbers are drawn, if factorize(n, ret) returns then the elements added to ret multiply to n and each satisfies is_prime, and ret stays ordered; for n < 9006401 the added elements are the prime factorisation of n. When (n-1)^2 fits in T the only other outcome is not ending. n <= 0 is undefined behaviour; factorize(9006401) yields the composite 9006401.", "quantifier": "all n >= 1 and all random sequences", "why_tests_cant": "randomised algorithm: all histories of the random source", "anchors": ["include/symxx/factorize.hpp: factorize", "include/symxx/factorize.hpp: Pollard_Rho"]}
{"id": "C21", "title": "Pollard-Rho returns a proper divisor", "statement": "Whatever random numbers are drawn, if Pollard_Rho(n) returns d then d divides n and 1<d; d=n exactly when is_prime(n), otherwise d<n; for (n-1)^2 representable the only other outcome is not ending.", "quantifier": "all n >= 4, all random sequences", "why_tests_cant": "all histories of the random source", "anchors": ["include/symxx/factorize.hpp: Pollard_Rho"]}
{"id": "C22", "title": "Rational: arithmetic is exact", "statement": "Whenever a constructor from integers, +, -, *, /, negate or inverse on Rational returns, the result denotes the exact rational number; so does every finite sequence of these operations (and of reading fractions from text).", "quantifier": "all operands (any signs), all widths of T, all operation sequences", "why_tests_cant": "infinite operand space", "anchors": ["include/symxx/num.hpp: Rational::operator+=", "include/symxx/num.hpp: Rational::operator*=", "include/symxx/num.hpp: Rational::normalize"]}
{"id": "C23", "title": "Rational: results are in lowest terms", "statement": "Constructor (from integers), +, -, *, /, inverse, negate return fractions in lowest terms when given fractions in lowest terms; the sign of the denominator is not normalised (refuted), and the string constructor does not reduce (refuted).", "quantifier": "all operands and all operation sequences", "why_tests_cant": "invariant over all operation histories", "anchors": ["include/symxx/num.hpp: Rational::normalize", "include/symxx/num.hpp: Rational::Rational(const std::string&)"]}
{"id": "C24", "title": "Rational: order and equality", "statement": "On positive denominators ==, != and <=> agree with the order of the rationals; equality agrees for every sign; with a negative denominator (reachable through inverse or /) < is wrong.", "quantifier": "all pairs of rationals", "why_tests_cant": "infinite operand space, history-dependent sign", "anchors": ["include/symxx/num.hpp: Rational::operator<=>", "include/symxx/num.hpp: Rational::operator=="]}
{"id": "C25", "title": "Rational: overflow is the only way to be wrong", "statement": "On a w-bit signed T every sequence of Rational constructions and operations either returns the exact result, or has signed overflow (undefined behaviour), or throws division by zero; no single operation overflows when all components have magnitude at most B with 2*B*B < 2^(w-1).", "quantifier": "all operands, all widths", "why_tests_cant": "2^256 operand tuples", "anchors": ["include/symxx/num.hpp: Rational"]}
{"id": "C26", "title": "Rational: pow", "statement": "r.pow(e) is the e-th power for every integer e >= 0 (given with any denominator) provided the machine pow is exact on values up to 2^53; for every negative e and |n|>=2, n.pow(e) is 0, and (1/n).pow(-1) is a fraction with denominator 0.", "quantifier": "all r, all n", "why_tests_cant": "infinite", "anchors": ["include/symxx/num.hpp: Rational::pow"]}
{"id": "C27", "title": "Rational: zero denominators are always reported", "statement": "Construction from integers or a string with zero denominator, inverse of zero, and division by zero throw; every Rational obtained from the API by construction and + - * / has a nonzero denominator.", "quantifier": "all operands and operation sequences", "why_tests_cant": "invariant over histories", "anchors": ["include/symxx/num.hpp: Rational"]}
{"id": "C28", "title": "Real: normalisation preserves the number", "statement": "Constructing/normalising coe * radicand^(1/index) with radicand > 0 and index >= 1 leaves the denoted real number unchanged, whatever factorisation the random source induces and whatever value is behind the iterator of an empty map (an undefined read); with index 0 and an integer radicand >= 2 it never returns.", "quantifier": "all coe, radicand, index", "why_tests_cant": "infinite; statement about real roots", "anchors": ["include/symxx/num.hpp: Real::normalize", "include/symxx/num.hpp: decompose_radicand"]}
{"id": "C29", "title": "Real: canonical form is unique", "statement": "After normalisation the radicand is a positive integer, index-power free and not a perfect d-th power for a divisor d > 1 of the index; two such Reals denote the same number iff == holds, for any histories of constructor, + - * / and negate. inverse() and pow with a negative exponent return numbers not in this form, so equal numbers can compare unequal.", "quantifier": "all pairs of Reals", "why_tests_cant": "needs unique factorisation over all integers", "anchors": ["include/symxx/num.hpp: Real::normalize", "include/symxx/num.hpp: Real::operator=="]}
{"id": "C30", "title": "Real: multiplication, division and powers denote the right number", "statement": "*, /, inverse, pow on Reals with positive radicands denote product, quotient, inverse and power: integer exponents of either sign for every base, fractional exponents with positive denominator for positive bases; also for every history of operations. An exponent with a negative denominator is mishandled.", "quantifier": "all operands", "why_tests_cant": "infinite", "anchors": ["include/symxx/num.hpp: Real::operator*=", "include/symxx/num.hpp: Real::pow", "include/symxx/num.hpp: Real::inverse"]}
{"id": "C31", "title": "Real: addition is exact or refused", "statement": "a + b and a - b either denote the exact sum/difference, in normal form, or throw; + throws exactly when the radical parts of the normalised operands differ (so also for 0 + sqrt(2)).", "quantifier": "all operands", "why_tests_cant": "infinite", "anchors": ["include/symxx/num.hpp: Real::operator+=", "include/symxx/num.hpp: Real::is_equivalent_with"]}
{"id": "C32", "title": "Real: order agrees with the real numbers", "statement": "For operands obtained by constructor, + - * and negate with positive denominators, < and > agree with the order of the denoted real numbers (index product within the unsigned type); with a negative denominator the comparison is wrong.", "quantifier": "all pairs", "why_tests_cant": "infinite, exact comparison of roots", "anchors": ["include/symxx/num.hpp: Real::operator<"]}
{"id": "C33", "title": "Poly: + - * negate evaluate homomorphically", "statement": "Whenever Poly +, -, *, negate (and the compound assignments) return, the value of the result at an assignment of reals to symbols equals the operation on the values, at every assignment where the powers occurring are defined; positive assignments always qualify.", "quantifier": "all polynomials, all integer widths, all assignments", "why_tests_cant": "infinite", "anchors": ["include/symxx/frac.hpp: Poly::operator+=", "include/symxx/frac.hpp: Poly::operator*=", "include/symxx/frac.hpp: Poly::normalize", "include/symxx/frac.hpp: Term::operator*="]}
{"id": "C34", "title": "Poly: normalisation merges like terms and preserves value", "statement": "Poly normalisation leaves the value unchanged for every order in which std::sort may leave the terms. With the terms sorted, of two surviving like terms (same symbol powers, same radical) one has coefficient zero; with rational coefficients the symbol powers of the result are pairwise distinct. In general zero terms remain and one call is not enough: sqrt3*x - sqrt3*x + sqrt2*x + 3*x keeps 0*x, which a second call removes.", "quantifier": "all term vectors, all permutations left by the sort; exists", "why_tests_cant": "all permutations", "anchors": ["include/symxx/frac.hpp: Poly::normalize"]}
{"id": "C35", "title": "Poly: integer powers", "statement": "p.pow(n), n >= 0, of a single term or of a polynomial that evaluates to a number is the n-th power of its value. Of a polynomial of several terms, n >= 2, it evaluates to f/n! times the n-th power, where f is n! wrapped to T's width; so it is the n-th power exactly when n! is representable in T (n <= 20 for 64 bit) or the value is 0. From n = 21 on in 64 bits it is wrong, and from n = 66 on it is 0: (x+y)^66+3 prints 3. A polynomial of several terms with a negative exponent gives the empty polynomial.", "quantifier": "all polynomials the operations build, all assignments of positive reals, all n, all widths; exists for the concrete line", "why_tests_cant": "infinite; overflow threshold", "anchors": ["include/symxx/frac.hpp: Poly::pow", "include/symxx/frac.hpp: solve_variable_eq"]}
{"id": "C36", "title": "solve_variable_eq enumerates exactly the solutions", "statement": "For m >= 2 solve_variable_eq(n,m) returns and lists every non-negative solution of a1+...+am=n exactly once and nothing else; for m < 2 it never returns.", "quantifier": "all n >= 0, all m", "why_tests_cant": "unbounded n and m", "anchors": ["include/symxx/frac.hpp: solve_variable_eq"]}
{"id": "C37", "title": "Substitution commutes with evaluation", "statement": "Substituting values for symbols and then evaluating equals evaluating under the extended assignment.", "quantifier": "all terms/polys/fracs, all environments", "why_tests_cant": "infinite", "anchors": ["include/symxx/frac.hpp: Term::substitute", "include/symxx/frac.hpp: Poly::substitute", "include/symxx/frac.hpp: Frac::substitute"]}
{"id": "C38", "title": "Frac: + - * / are exact", "statement": "After any history of Frac additions, subtractions, multiplications and divisions, the result denotes the corresponding field expression at every assignment at which the denominators are nonzero; division by a fraction recognised as zero throws 'Division by zero'.", "quantifier": "all fractions, all histories of operations, all assignments", "why_tests_cant": "infinite", "anchors": ["include/symxx/frac.hpp: Frac::operator+=", "include/symxx/frac.hpp: Frac::normalize"]}
{"id": "C39", "title": "Frac: normalisation can divide by zero", "statement": "Frac normalisation keeps the value whenever it completes; but it evaluates g % 0 (undefined behaviour) when a numerator term and a non-leading denominator term both have zero coefficient, e.g. (z-z)/(y+x-x), and (z-z)/(x+y-y) throws 'Division by zero' although its value is 0.", "quantifier": "all fractions; exists", "why_tests_cant": "rare shape", "anchors": ["include/symxx/frac.hpp: Frac::normalize"]}
{"id": "C40", "title": "Parser: precedence and associativity", "statement": "Every token sequence derivable in the grammar Expr ::= [sign] Sum; Sum ::= Prod | Sum (+|-) Prod; Prod ::= Pow | Prod (*|/) Pow | Prod Pow (juxtaposition); Pow ::= Atom | Pow ^ Atom; Atom ::= number | symbol | radical number | ( Expr ) parses to exactly the tree the grammar assigns (a leading sign stands for 0 sign ...), and that tree is unique; the same from text. Juxtaposition binds like '*', so 1/2x is (1/2)*x.", "quantifier": "all expressions of any depth", "why_tests_cant": "unbounded nesting", "anchors": ["include/symxx/parser.hpp: ExprParser::parse", "include/symxx/parser.hpp: great_or_equal"]}
{"id": "C41", "title": "Parser: malformed input is not always rejected", "statement": "Parsing a token list always ends with a tree or an exception, never with an access to an empty stack. Whenever it returns a tree, the operands of the tree are all operands of the text in order, and every operator after the first operand is used; operators before the first operand can be lost (\"*)1\" gives 1), one per surplus closing parenthesis, and an unclosed '(' becomes an operator of the tree. Texts outside the grammar such as '(1 2' or '1 2+' are accepted.", "quantifier": "all token strings", "why_tests_cant": "all inputs", "anchors": ["include/symxx/parser.hpp: ExprParser::parse"]}
{"id": "C42", "title": "Tokenizer consumes the whole input", "statement": "parse succeeds exactly when the whole text is a sequence of lexemes separated by white space (in one way only) and the parse of that sequence succeeds; one tokenizer step cuts off exactly one lexeme, and yields END exactly when only spaces are left. Between two tokens exactly one '*' is inserted for juxtaposition, a 0 before a leading sign, and a radical becomes a parenthesised power. The character after a root index is skipped whatever it is (\"_3x16\" is \"_3/16\").", "quantifier": "all strings", "why_tests_cant": "all inputs", "anchors": ["include/symxx/parser.hpp: get_all_tokens", "include/symxx/parser.hpp: get_token"]}
{"id": "C43", "title": "Printer/parser round trip", "statement": "For every tree of + - * / ^ over non-negative machine integers and symbols (one letter, or any number of characters other than one, without '}'), printing succeeds, the text parses, and the result has the same value under every assignment. A one-character name that is not a letter does not survive: {1}+x prints as 1+x.", "quantifier": "all trees of any depth", "why_tests_cant": "unbounded nesting; parenthesis placement rule", "anchors": ["include/symxx/expr.hpp: to_string", "include/symxx/expr.hpp: withparen", "include/symxx/parser.hpp: parse"]}
{"id": "C44", "title": "Simplification preserves value", "statement": "ExprNode::normalize, try_eval and substitute preserve the value of the tree at every assignment where it is defined (denominators nonzero, powers that get computed representable, with normalised exponents). An exponent that evaluates to a fraction with denominator -1 is not reduced: x^2 written as x^(0-3/(0-2)-1/(0-2)) becomes x^(-2/-1), and (x+1)^(the same) throws.", "quantifier": "all trees, all assignments", "why_tests_cant": "infinite", "anchors": ["include/symxx/expr.hpp: normalize", "include/symxx/expr.hpp: try_eval"]}
{"id": "C45", "title": "Printing a partly simplified tree can lose parentheses", "statement": "Printing a tree is faithful whenever every leaf is printed as one factor in products and powers; but after normalize a polynomial leaf with several terms is printed without parentheses inside a product or power, so the text denotes a different expression: (x+1)^y prints as x+1^y, whose value at x=1, y=2 is 2 and not 4.", "quantifier": "exists", "why_tests_cant": "needs a specific shape", "anchors": ["include/symxx/expr.hpp: withparen", "include/symxx/frac.hpp: output_need_paren"]}
{"id": "C46", "title": "dtoa: the digits read back as the same double", "statement": "For every positive finite double, the generated digits (1 to 17 of them, no leading zero) and exponent denote a decimal strictly between the midpoints to its two neighbouring doubles, so a correctly rounding reader returns the same double. The whole text does so too whenever the value is not an integer or is above 10^21; a negative double prints as '-' followed by the text of its absolute value; two different positive non-integral doubles never print alike. The digits are not always the shortest ones that read back, and infinities and NaNs print as ordinary numbers: infinity prints as 1.797693134862316e308, the sign of an infinity is kept and that of a NaN is lost.", "quantifier": "all 2^63 bit patterns of finite doubles of each sign", "why_tests_cant": "2^63 inputs", "anchors": ["include/symxx/dtoa.hpp: grisu2", "include/symxx/dtoa.hpp: digit_gen", "include/symxx/dtoa.hpp: grisu_round", "include/symxx/dtoa.hpp: cached_power"]}
{"id": "C47", "title": "dtoa: layout denotes the digits", "statement": "Laying out digits r with exponent k gives a text whose value is exactly r*10^k when k<0, or when there are more than 21 places, or when there is a single digit; an integer below 10^21 with n>1 digits is printed 10^(n-1) times too large (12.0 prints as 120.0). Exponents of absolute value up to 999 are written correctly; at 1000 a ':' appears.", "quantifier": "all digit strings and exponents", "why_tests_cant": "infinite", "anchors": ["include/symxx/dtoa.hpp: prettify_string", "include/symxx/dtoa.hpp: fill_exponent"]}
{"id": "C48", "title": "dtoa: power table and scaling", "statement": "Every one of the 687 cached powers is 10^k rounded to a normalised 64-bit significand with error at most half a unit; a lookup outside -343..343 is out of bounds. For every binary exponent a double can have, the chosen power brings the product's exponent into -59..-56, and the 64x64 product is the exact product rounded to nearest.", "quantifier": "all 687 entries, all exponents of doubles, all pairs of 64-bit significands", "why_tests_cant": "finite but needs exact big arithmetic per entry", "anchors": ["include/symxx/dtoa.hpp: powers_ten", "include/symxx/dtoa.hpp: powers_ten_e"]}
{"id": "C49", "title": "CLI: what each line does", "statement": "Every line splits in exactly one way into a first word and the text behind the first blank. ntex, func, constant, print, factor, version do that command and nothing else, quit (and only quit) ends the loop. normalize and tex do their command and, if it succeeds, evaluate the whole line once more as an expression, command word included. A word f(...) with a defined f is a call, and what stands behind the ')' is ignored; every other line is evaluated as an expression. normalize prints the simplified expression (same value as the text read) and, unless that is an integer or has unknown symbols, its floating-point value; tex/ntex print its TeX form; factor prints an ascending factorisation, prime below 9006401. A function named \"\" takes over lines starting with '('.", "quantifier": "all lines, all functions and constants defined before, all floating-point types; witnesses for the defects", "why_tests_cant": "ranges over all lines and all states of the session", "anchors": ["include/symxx/cli.hpp: mainloop", "include/symxx/cli.hpp: cmd_normalize, cmd_tex, cmd_ntex, cmd_factor, print_result"]}
{"id": "C50", "title": "CLI: errors do not end the session and change nothing", "statement": "In every session, a line that fails with an Error leaves functions and constants as they were and the loop goes on; an exception ends the session exactly if the line is 'constant name=text' with a text std::stold refuses (then the program dies). Between rounds every stored body is well-formed and the maps are ordered. Redefining a function whose old and new bodies are both operator trees is undefined behaviour.", "quantifier": "all sessions of any length, all lines, all reachable states; witnesses for the defects", "why_tests_cant": "ranges over all histories of lines", "anchors": ["include/symxx/cli.hpp: mainloop", "include/symxx/cli.hpp: cmd_constant", "include/symxx/cli.hpp: cmd_func"]}
{"id": "C51", "title": "Expression trees own their nodes", "statement": "Any sequence of constructing, copying, normalising, substituting, parsing, printing, destroying and assigning expressions behaves as if variables held plain trees, never frees or reads a node twice, and leaves exactly the nodes its variables own (all freed when they are gone), as long as no variable holding an operator tree is assigned to a different variable holding one; exceptions half way keep this. A copy is independent of its original. Assigning operator tree to operator tree copies two pointers: after the source ends, every use of the target is a use after free or a double free, and the target's old nodes are lost. A successful parse loses exactly as many nodes as the tree has, a throwing one at most one per token.", "quantifier": "all programs over expression variables (any length), all trees, all exceptions", "why_tests_cant": "memory histories are unbounded", "anchors": ["include/symxx/expr.hpp: OpData", "include/symxx/expr.hpp: ExprNode"]}
{"id": "C52", "title": "Term: product and power", "statement": "Term multiplication adds exponents symbol-wise, never keeps a zero exponent, and denotes the product; pow multiplies every exponent.", "quantifier": "all terms", "why_tests_cant": "infinite", "anchors": ["include/symxx/frac.hpp: Term::operator*=", "include/symxx/frac.hpp: Term::pow", "include/symxx/frac.hpp: Term::normalize"]}
{"id": "C53", "title": "Machine-integer text", "statement": "For int/long T, adapter_to_int(adapter_to_string(n)) == n for every n of T; leading blanks, a sign and digits are read as the number denoted, trailing characters are ignored, numbers outside 64 bits throw; for T narrower than 64 bits out-of-range numbers are narrowed silently.", "quantifier": "all integers of every width up to 64 bits, all strings of the stated shape", "why_tests_cant": "ranges over all integers of the type and all strings", "anchors": ["include/symxx/int_adapter.hpp: adapter_to_int, adapter_to_string"]}
{"id": "C54", "title": "gcd and lcm of machine integers", "statement": "When adapter_gcd/adapter_lcm return, the result is the non-negative greatest common divisor / least common multiple; they return whenever magnitudes (for lcm: the product) are representable.", "quantifier": "all pairs of integers, all widths", "why_tests_cant": "2^128 pairs", "anchors": ["include/symxx/int_adapter.hpp: adapter_gcd, adapter_lcm"]}
{"id": "C55", "title": "Rational: text round trip", "statement": "Reading the text of a Rational gives back the same numerator and denominator (T up to 64 bits), so different fractions print differently; the TeX form is \\frac{n}{d} or the numerator.", "quantifier": "all numerators and nonzero denominators of T", "why_tests_cant": "2^128 values", "anchors": ["include/symxx/num.hpp: Rational::to_string, to_tex, Rational(const std::string&)"]}
{"id": "C56", "title": "Real: the text determines the number", "statement": "Two normalised Reals with the same to_string text denote the same number; to_tex writes the index of a non-square root as 'n3' instead of '3'.", "quantifier": "all pairs of normalised Reals; exists", "why_tests_cant": "ranges over all pairs of coefficients, indices and radicands", "anchors": ["include/symxx/num.hpp: Real::to_string, Real::to_tex"]}
{"id": "C57", "title": "Poly: evaluation to a Real", "statement": "Poly::eval and try_eval return the exact value of the polynomial whenever they return a value; a polynomial without symbols whose coefficient is irrational (e.g. Poly(sqrt 2)) throws from eval although it has a value.", "quantifier": "all polynomials; exists", "why_tests_cant": "ranges over all polynomials and coefficients", "anchors": ["include/symxx/frac.hpp: Poly::eval, Poly::try_eval"]}
{"id": "C59", "title": "The only exceptions are symxx::Error", "statement": "No constructor or operator of Rational, Real, Poly, Frac and no parsing, simplification, evaluation or substitution of expressions throws anything but symxx::Error (no std::invalid_argument, std::out_of_range or other standard exception escapes), whatever the operands and whatever the text; results keep nonzero denominators. A hand-made Rational with denominator 0 is undefined behaviour instead.", "quantifier": "all operands, all texts, all results of random_device", "why_tests_cant": "ranges over all values and all strings", "anchors": ["include/symxx/num.hpp: Rational, Real", "include/symxx/frac.hpp: Poly, Frac", "include/symxx/expr.hpp: ExprParser, ExprNode", "include/symxx/error.hpp: Error"]}
{"id": "C60", "title": "Printing throws nothing", "statement": "to_string and to_tex of Real, Poly, Frac and expressions throw no exception at all; so whatever has been read and simplified can be printed.", "quantifier": "all values with nonzero denominators; all texts", "why_tests_cant": "ranges over all values", "anchors": ["include/symxx/num.hpp: Real::to_string, to_tex", "include/symxx/frac.hpp: Poly::to_string, Frac::to_string", "include/symxx/expr.hpp: ExprNode::to_string, to_tex"]}
{"id": "C61", "title": "Floating-point evaluation with given symbol values", "statement": "try_eval with a map of symbol values returns a value exactly if every symbol of the expression is in the map, and null exactly if one is missing, whatever the floating-point type does; were the floating-point operations exact, the result would be the value of the expression; an expression with an operator other than + - * / ^ never yields a value.", "quantifier": "all expressions, all maps, all floating-point types", "why_tests_cant": "ranges over all expressions and maps", "anchors": ["include/symxx/frac.hpp: Term::try_eval, Poly::try_eval, Frac::try_eval", "include/symxx/expr.hpp: ExprNode::try_eval"]}
{"id": "C62", "title": "CLI: definitions", "statement": "After any session a constant has the value given by the last line that defines it and a function the parameters and simplified body of the last line that defines it; names no line defines are as at the start, where there is the function fib and the constants pi, e, phi and egamma. A line defines at most one thing. A definition without parentheses, with an empty parameter, without '=', or whose value is not a number is refused with a message that says so, and changes nothing. 'print' lists all functions, then all constants, in the order of the names.", "quantifier": "all sessions of any length", "why_tests_cant": "ranges over all histories of lines", "anchors": ["include/symxx/cli.hpp: cmd_func, cmd_constant, cmd_print, print_func, print_constant"]}
{"id": "C63", "title": "CLI: calls", "statement": "The arguments of a call are rational numbers separated by commas (blanks ignored, one trailing comma accepted). A call with the right number of arguments prints the body with the parameters replaced by the arguments, simplified; where the simplifications are defined it has the value of the body with the parameters set to the arguments, a repeated parameter to its last one. A wrong number is the Error naming the right one, an empty argument the Error saying so.", "quantifier": "all function definitions, all argument texts, all values of the remaining symbols", "why_tests_cant": "ranges over all definitions and arguments", "anchors": ["include/symxx/cli.hpp: cmd_call", "include/symxx/expr.hpp: ExprNode::eval with an environment"]}
{"id": "C64", "title": "CLI: the end of the input", "statement": "The loop does not look at the state of the input stream: after the last complete line it goes on for ever, printing the prompt and an Error per round and changing nothing; a last line without a newline is executed again and again.", "quantifier": "all inputs, any number of further rounds", "why_tests_cant": "ranges over unbounded executions", "anchors": ["include/symxx/cli.hpp: mainloop"]}
{"id": "C58", "title": "The text of polynomials, fractions and simplified expressions reads back with the same value", "statement": "Reading what Poly, Frac or an expression prints gives an expression of the same value under every assignment of numbers to the symbols, whenever the printed coefficients are in normal form with positive denominators and parts below 2^(w-1) in magnitude, exponents are positive integers, names can be read, a denominator that is one term is a single factor, and the leaves of a tree hold together at their places. The text of an expression after simplification then has the value the expression had before. Outside that it fails: 1/(2x) prints as 1/2x, which reads as x/2; the square root of x prints as (x**1/2), which reads as x/2; negative exponents and denominators print as text that cannot be read.", "quantifier": "all polynomials, fractions and trees of any size, all assignments, all machine widths from 3 to 64 bits, any implementation of std::sort, any meaning of decimal fractions", "why_tests_cant": "unboundedly many shapes of polynomials and trees; a missing parenthesis or sign changes the value only for particular shapes and assignments", "anchors": ["include/symxx/frac.hpp Term::to_string, Poly::to_string, Frac::to_string, Frac::output_need_paren", "include/symxx/num.hpp Rational::to_string, Real::to_string", "include/symxx/expr.hpp ExprNode::to_string", "include/symxx/parser.hpp ExprParser::parse"]}
{"id": "C65", "title": "Decimal literals: the value read, and when it is off by one unit in the last place", "statement": "A literal i.f (digits, one dot, digits) whose shortest form is m / 10^k is read, as a string or inside an expression, as m / 10^k or as (m - 1) / 10^k in lowest terms with positive denominator, and with a minus sign in front as the negation of that; never anything else. It is exact for integers, for one decimal place and when the value is a binary fraction. It is not exact in general: \"0.53\" is read as 13/25 where long double is the x87 format, \"1.15\" as 57/50 where it is binary64. With more decimal places than T's digits10 the value is first rounded to digits10 places, to a nearest one, and may again be one unit less; a second dot and what follows it is dropped, and a value beyond T is undefined behaviour. A literal too large or too small for the floating format is the Error 'The number is out of range.', and one within it never is.", "quantifier": "all literals whose 28 m fits the significand and whose k fits the decimal digits of the floating format and of T; all widths of T; every binary floating format with at least 24 bits and enough digits (x87, binary64, binary128 among them)", "why_tests_cant": "unboundedly many literals and formats; whether the last digit is lost depends on the rounding of each one", "anchors": ["include/symxx/num.hpp decimal_places, round_decplaces, Rational(long double), Rational(const std::string &)", "include/symxx/parser.hpp get_token, parse_a_number"]}
{"id": "C66", "title": "factorize ends with probability one", "statement": "Whatever is drawn, each round of the endless loop in Pollard_Rho ends. A round whose draw shares a factor with n, its square not being a multiple of n, returns a proper divisor, and so does one whose draw is 2 less than a multiple of p when n = p^2; for every composite number there are such draws. So factorize(n) ends for every random source that gives such draws again and again (independent uniform draws do with probability one), below 9006401 with the prime factors of n, and no sequence of past draws leads to a dead end. For a source that repeats one number it need not end: factorize(25) does not, if every draw is 1.", "quantifier": "all n with (n-1)^2 representable, all fair sources of random numbers, all histories of draws, all widths from 10 bits", "why_tests_cant": "termination over unbounded random sequences and all inputs", "anchors": ["include/symxx/factorize.hpp Pollard_Rho, factorize, random_digit"]}
{"id": "C67", "title": "Conversions to floating-point and integer types", "statement": "Huge::to<floating> gives the nearest number of the type for magnitudes below 2^64 (the number itself if its bits fit), throws from 2^90 on, and in between silently converts the magnitude modulo 2^64 (2^64 + 1 becomes 1). Huge::pow returns 0 whatever the arguments. Rational::to<floating> is the number of the type nearest to the quotient when both parts fit the significand, and within 6 half-units of it always; Rational::to<integer> is the truncated quotient when both parts and the quotient fit the type, but each part is reduced modulo 2^w first, so 2^32/1 is 0 and 1/2^32 divides by zero for int. Real::to<floating> of a rational number is that of Rational; of a root it is within 2(11 + j) double roundings of the real number, j the logarithm of the radicand: 45 bits for radicands below 2^64, whatever the precision of the type.", "quantifier": "all Huges, all rationals, all Reals with positive radicand and index up to 2^53; every binary format with at least the given bits; every std::pow that is accurate to two units", "why_tests_cant": "the failures start at magnitudes tests do not reach, and an error bound is a statement about every value", "anchors": ["include/symxx/huge.hpp: internal_to(FloatingTag), pow", "include/symxx/num.hpp: Rational::to, Real::to"]}
{"id": "C68", "title": "Accuracy of numeric evaluation", "statement": "For an expression that only adds, multiplies, divides and raises to positive integer powers, with positive numbers and positive symbol values, evaluating it in long double (p bits) gives a number within 2k/2^p of the exact real value, relatively, where k counts the roundings along the tree (defined by structural recursion: one per addition on the longer side, one per product and quotient plus both sides, the exponent times the base for a power). With a subtraction nothing holds: (x + 1) - x at x = 2^64 is 0.", "quantifier": "all such expressions of any size, all positive symbol values, all p >= 2, every std::pow that errs by a bounded number of roundings", "why_tests_cant": "an error bound over all inputs and all expression shapes", "anchors": ["include/symxx/expr.hpp: try_eval", "include/symxx/frac.hpp: try_eval", "include/symxx/num.hpp: Real::to"]}
{"id": "C69", "title": "Deciding rationality and converting to a Rational", "statement": "For every Real obtained by constructors, + - * /, negate, inverse and integer powers, is_rational() is true exactly when the number is a quotient of two integers; it never overflows. to<Rational<T>>() then gives that number exactly, and throws \"Must be a rational.\" exactly when the number is irrational. Frac::is_rational() is true exactly when no term of the numerator or denominator has a symbol and every coefficient is rational (term by term: 2 sqrt(2) over 3 sqrt(2) is refused although it is 2/3). Frac::to<Rational<T>>() gives the value of the fraction for every assignment of the symbols, never returns for a fraction that contains a symbol, and never returns where is_rational() is false.", "quantifier": "all histories of operations, all widths, all coefficients, radicands and indices; all fractions and assignments", "why_tests_cant": "irrationality quantifies over all pairs of integers; histories are unbounded", "anchors": ["include/symxx/num.hpp: Real::is_rational", "include/symxx/num.hpp: Real::internal_to", "include/symxx/frac.hpp: Term::is_rational, Poly::is_rational, Frac::is_rational", "include/symxx/frac.hpp: Frac::to"]}
{"id": "C70", "title": "Polynomial expressions simplify to a canonical form", "statement": "An expression built with +, - and * and literal powers n (n! representable; for a power of a symbol any representable n up to 2^53) from symbols and integers that normalize() accepts becomes a single expanded polynomial: integer coefficients, every monomial once, in descending order, denominator 1; its value is the expression's under every assignment of reals. It is always printed, and its text parses back to an expression with the same values. Two such expressions have the same to_string() text exactly when they have equal values under all assignments (equality for positive values is enough; then the TeX texts agree too); in particular the text is \"0\" exactly for the zero function, and e1-e2 simplifies to \"0\" exactly when e1 and e2 are equal functions. Simplification and printing cannot fail when the value of the expression with every symbol 1, every sign + and every 0 replaced by 1 is at most 2^53 and representable, and likewise its degree (width at most 128); so it decides equality of such expressions. Beyond that it can overflow (2^62*x+2^62*x is undefined behaviour). This does not extend to quotients: x*y/y, (x^2-1)/(x-1) and x/2+x/2 keep their unreduced text.", "quantifier": "all polynomial expression trees of any size and names, all real assignments, all machine widths, all sort implementations that order by the comparator", "why_tests_cant": "equality of functions quantifies over all real assignments and the pairs of expressions are unbounded; tests only see finitely many rewrites", "anchors": ["include/symxx/expr.hpp: ExprNode::normalize", "include/symxx/expr.hpp: ExprNode::to_string", "include/symxx/frac.hpp: Poly::normalize", "include/symxx/frac.hpp: Poly::pow", "include/symxx/frac.hpp: Frac::normalize", "include/symxx/frac.hpp: Poly::to_string"]}
{"id": "C71", "title": "Simplification recognises zero for quotients and roots", "statement": "For an expression built with +, -, *, / and literal powers n (n! representable) from symbols and non-negative integers, plus literal fractional powers of symbols, that normalize() accepts: the result is a single quotient of two sums of rational multiples of products of powers, each product once and in descending order; wherever the expression is defined for positive symbols its denominator is not zero and its value is the expression's. The expression is then defined at some positive assignment (so a division by something that is identically zero is always refused), and any two accepted expressions are defined together somewhere. The printed text is \"0\", \"0/...\" or \"(0)/...\" exactly if the expression is zero at every positive assignment where it is defined; hence e1-e2 prints such a zero exactly if e1 and e2 agree wherever both are defined. The converse of the domain claim fails: (x-x+1)/(x-x+2), which is 1/2 everywhere, is refused as a division by zero, and (3/(0-2))^3 is printed with a negative denominator.", "quantifier": "all such expression trees of any size and names, all positive real assignments, all machine widths, all sort implementations that order by the comparator", "why_tests_cant": "zero as a function quantifies over all real assignments; a numerator that is zero at all sampled points need not be zero, and whether the divisors have a common non-zero point is not observable by sampling", "anchors": ["include/symxx/expr.hpp: ExprNode::normalize", "include/symxx/expr.hpp: ExprNode::try_eval", "include/symxx/frac.hpp: Frac::normalize", "include/symxx/frac.hpp: Frac::operator/=", "include/symxx/frac.hpp: Frac::pow", "include/symxx/frac.hpp: Frac::to_string", "include/symxx/frac.hpp: Poly::is_zero"]}
{"id": "C72", "title": "TeX output denotes the value", "statement": "Read as a formula in the usual way (a number, a letter, a control word as a symbol, \\frac, \\sqrt, superscripts in braces, juxtaposition and \\times as product, + and -), the TeX text has at most one reading, and its value is that of what was printed: for every rational; for every number c*sqrt(m) in normal form; for every polynomial and fraction whose coefficients are such numbers, whose symbols are one letter or a word of letters other than frac, sqrt, times and whose exponents are non-zero rationals in lowest terms (for symbols below a root: at positive values); for every tree whose undivided leaves hold together where they stand. In particular the TeX text of a simplified polynomial expression has, at every assignment, the value of the expression that was simplified, and equal texts mean equal functions. It does not hold outside: roots of index 3 and more print a stray n (\\sqrt[n3]{2}), a power of a power is a double superscript, a sum, product or negative number under an exponent loses its parentheses, and names with digits, the empty name and names such as frac are unreadable.", "quantifier": "all rationals, normal-form numbers, polynomials, fractions and trees of any size in the stated classes, all assignments, all machine widths", "why_tests_cant": "that a text denotes the right function needs its value at every assignment and every shape of tree; comparing with expected strings only fixes single outputs", "anchors": ["include/symxx/num.hpp: Rational::to_tex", "include/symxx/num.hpp: Real::to_tex", "include/symxx/frac.hpp: Term::to_tex", "include/symxx/frac.hpp: Poly::to_tex", "include/symxx/frac.hpp: Frac::to_tex", "include/symxx/expr.hpp: ExprNode::to_tex"]}
{"id": "C73", "title": "No operation introduces symbols", "statement": "The symbols of a parsed expression are exactly the symbol lexemes of the text, and each is written there (as a letter, or after '{'); a text without letters and braces is a number. Simplification, the four operations, powers and negation of fractions give results whose symbols occur in the operands. Substitution leaves no symbol that was given a value and adds none; with a value for every symbol a number is left. In every term the symbols are those of a map (ascending, each once) after parsing, simplification and substitution. The value of an expression depends only on the symbols that occur in it. Simplification may lose symbols (x^0).", "quantifier": "all texts, expressions, fractions, environments and names, all machine widths and integer functions, all sorts that permute", "why_tests_cant": "a leaked or renamed symbol can depend on the collision of particular names in particular terms; the claim is about every name and every expression", "anchors": ["include/symxx/parser.hpp: ExprParser::parse", "include/symxx/expr.hpp: ExprNode::normalize", "include/symxx/expr.hpp: ExprNode::substitute", "include/symxx/frac.hpp: Term::operator*=", "include/symxx/frac.hpp: Term::substitute", "include/symxx/frac.hpp: Frac::normalize"]}
{"id": "C74", "title": "Huge: counting and sign changes", "statement": "Unary minus negates the value, is its own inverse and keeps the representation canonical; abs is the absolute value. ++ adds exactly 1 to every canonical number, and counting up from any non-negative number with any number of ++ is exact and stays canonical. -- subtracts exactly 1 except at -1, where it gives 0: counting down from 0 alternates between -1 and 0 for ever, while below -1 it is exact and canonical for ever. From 2^30, -- leaves a leading zero digit: the counter then never compares equal to zero, and after passing it becomes 2^60-1.", "quantifier": "all canonical numbers and all numbers of steps", "why_tests_cant": "unbounded numbers and unbounded counting histories; 2^30 steps are needed to see the wrap", "anchors": ["include/symxx/huge.hpp: Huge::operator++, Huge::operator--, Huge::operator-(), Huge::negate, Huge::abs"]}
{"id": "C75", "title": "Real: the double arithmetic behind powers and roots", "statement": "Real raises to powers and pulls factors out of roots in double, not in T. Wherever every number that passes through a double fits 53 bits this changes nothing: every history of operations and every comparison gives what exact arithmetic gives, so C28-C32 apply to the program as it is. Beyond that it is silently inexact: an integer n to a power e >= 2 gives an integer within one part in 2^52 of n^e, equal to n^e if and only if a double holds n^e, and is returned without an error whenever it fits T; an odd n with |n^e| > 2^53 is therefore always wrong, e.g. 3^34 is 16677181699666568. The square root of 5^23 becomes 48828125 * 2, and 94906267 counts as less than sqrt(4*94906267^2 - 1)/2.", "quantifier": "all histories of Real operations, all integers and exponents up to 2^53, all widths of T, every factorisation, every std::pow that is exact where a double holds the power and within one unit in the last place elsewhere, every long double format of at least 53 bits", "why_tests_cant": "The set of powers that survive the trip through double is infinite in shape and depends on the library's pow; tests use small numbers, where double is exact.", "anchors": ["include/symxx/num.hpp Real::normalize, operator*=, pow, operator<; Rational::pow", "include/symxx/int_adapter.hpp adapter_pow"]}
{"id": "C76", "title": "Real operations on small numbers return", "statement": "Constructing, adding, subtracting, multiplying, dividing, raising to an integer power and comparing Real numbers returns (no overflow, no inexact double, no exception, no endless loop) whenever stated products of the operands' parts stay below 2^53 and 2^(w-1), and the result then has the mathematical value. In particular, with a fair source of random numbers, every root of every whole number below 9006401 is returned, and is that root, for every index. Outside the bounds the operations overflow although operands and results are short: 2^(1/3) / 3^(1/7), 1000001*sqrt 2 < 1000007*sqrt 3, (3*sqrt 2)^41.", "quantifier": "all integer widths, all operands (index, radicand, coefficient) and exponents within the bounds, all sources of random numbers, all loop budgets above a bound", "why_tests_cant": "Totality over all operands within the bounds; a test shows that a few operands return and says nothing about which intermediate product overflows for another.", "anchors": ["include/symxx/num.hpp: Real::normalize, operator+=, operator-=, operator*=, operator/=, pow, operator<, operator==", "include/symxx/factorize.hpp: factorize"]}
{"id": "C77", "title": "Error texts and type names", "statement": "A failed assertion throws an Error whose what() is the given message, a met one nothing, and unreachable code always throws; two Errors compare equal exactly when their messages are equal, wherever they were thrown. The text shown for an Error determines the message and the place (file and function names without escape characters), and the place determines file, line and function if file names have no colon (a witness shows the ambiguity otherwise). nameof returns the text between the first '<' and the last '>' of the compiler's function name, the whole text if neither occurs; with GCC's spelling it returns \"char\" for every plain type, so the banner of the CLI names the wrong type.", "quantifier": "all messages, source locations and function names", "why_tests_cant": "Injectivity of a text and the result of a search over every function name cannot be enumerated.", "anchors": ["include/symxx/error.hpp: location_to_str, Error, get_content, operator==, symxx_assert, symxx_unreachable", "include/symxx/utils.hpp: nameof", "include/symxx/cli.hpp: IntTypename"]}
{"id": "C78", "title": "The answer to an answer is the answer", "statement": "For every line that is read as a polynomial expression (as in C70) whose value with every symbol 1, every sign + and every 0 replaced by 1 is below 2^53 and at least two below the machine's bound, and whose degree is at most 2^53 and representable, reading, simplifying and printing succeed, and the printed text is a fixed point: read, simplified and printed again it is the same text, and it has the same TeX text. On the command line: normalize, given its own answer, prints that answer again, and ntex prints the same for a line and for its answer. It fails with denominators: the answer to 1/(2*x) is 1/2x, whose answer is x/2.", "quantifier": "all lines read as polynomial expressions of any size within the bounds, all widths up to 128 bits, all sort implementations, all states of the command line", "why_tests_cant": "Idempotence of read-simplify-print is a statement about every expression; the round trip passes through printer, tokenizer, parser and arithmetic, and a test sees only some texts.", "anchors": ["include/symxx/parser.hpp: ExprParser::parse", "include/symxx/expr.hpp: ExprNode::normalize", "include/symxx/expr.hpp: ExprNode::to_string", "include/symxx/frac.hpp: Poly::to_string", "include/symxx/cli.hpp: cmd_normalize, cmd_ntex"]}
{"id": "C79", "title": "Compound assignment with the object itself as argument", "statement": "For Huge (+= -= *= /= %=), Rational and Real (+= -= *= /=), Term (*=, and /= by its own coefficient), Poly (-= *=) and Frac (-= *=), `a op= a` does exactly what `a op= b` does with b a copy of a: the statements of the operator, executed in order on the object with every read of the argument reading the object as it then is, give the result of the value semantics; postfix ++ and -- return the old value. The others are not alias-safe, exactly so: `p += p` on a Poly and `f += f` on a Frac insert a vector into itself, undefined for every p and f; `f /= f` gives 1/denominator(f) instead of 1; `p /= c` with c a reference to the coefficient of p's own term t divides the terms up to t by c and the later ones by 1.", "quantifier": "all objects and arguments of every word size, the argument being the object itself or any other object, all assignments of reals to the symbols", "why_tests_cant": "whether an operator still reads its argument after it has written the object shows only when both are the same object, and then for particular values (gcds, common symbols, equal denominators); the claim is about all of them, and undefined behaviour may look right in a test", "anchors": ["include/symxx/huge.hpp: Huge::operator+= -= *= /= %= ++ --", "include/symxx/num.hpp: Rational and Real compound assignment", "include/symxx/frac.hpp: Term, Poly, Frac compound assignment, Frac::normalize"]}
{"id": "C80", "title": "What a compound assignment that throws leaves behind", "statement": "When a compound assignment of Huge, Rational, Real, Term or Poly throws, the object it was called on is unchanged, also when the argument is the object itself. Frac does not promise that: after an exception from += -= or /= the fraction is unchanged or already has the value of the sum, difference or quotient, after *= it has the value of the product (a witness is changed by an exception); dividing by the zero fraction leaves it unchanged; in every case no denominator in it is 0, so it can be used on.", "quantifier": "all objects without zero denominators, all arguments of that kind including the object itself, every factorisation and sort that do not throw, every exception point", "why_tests_cant": "an exception can leave the operator at any of its statements, in the middle of the loops over terms; a test forces one exception at one place", "anchors": ["include/symxx/huge.hpp: Huge::operator/= %=", "include/symxx/num.hpp: Rational and Real compound assignment", "include/symxx/frac.hpp: Term, Poly, Frac compound assignment, Frac::normalize"]}
{"id": "C81", "title": "Poly::normalize gives std::sort a comparator that is a strict weak ordering, except over negative denominators", "statement": "On terms whose exponents and coefficient have positive denominators, the comparator that Poly::normalize passes to std::sort meets std::sort's precondition: wherever it returns, it is irreflexive, asymmetric and transitive, and not being ordered either way is transitive. It says that a term comes before another exactly when it is more in the order: symbols with exponents (by name, then exponent), then root index, then radicand, then numeric value; two terms it orders neither way have the same symbols, exponents, radical and value. Hence any sort that keeps std::sort's promise leaves like terms next to each other. Over negative denominators, which arithmetic can leave behind, the precondition fails: the three terms of the input x+x^(0-3/(0-2)-1/(0-2))+x^3 are each before the next in a cycle, and sqrt(2)/2 and sqrt(2)/(-2) are each before the other, so that the call of std::sort is undefined behaviour.", "quantifier": "every word size, all terms with plain numbers, every sort that keeps std::sort's promise; witnesses for negative denominators", "why_tests_cant": "transitivity is a statement about all triples of terms, and a violated precondition of std::sort is undefined behaviour that usually goes unnoticed", "anchors": ["include/symxx/frac.hpp: Poly::normalize (609-626)", "include/symxx/num.hpp: Real::operator>, Rational::operator<", "include/symxx/num.hpp: Rational::normalize"]}
{"id": "C82", "title": "Reading text never leaves the text, and needs 7-bit characters", "statement": "Reading any text as an expression, as the body of func or constant, as a call, as a command line or as a Huge accesses no character outside the text (its terminating zero included), whatever the text is - also where it ends in the middle of a radical, a symbol in braces, a number or a definition - and no substr throws. On text of 7-bit characters every call of isdigit, isspace and isalpha is valid. With bytes above 127, negative as char, calls are made with an invalid argument: always if an expression begins with one; but never for an expression that is accepted and has no radical sign (the bytes then stand between braces). Behind the index of a radical and in front of the digits of a Huge, accepted texts make invalid calls.", "quantifier": "all texts of all lengths, with all 256 bytes; every machine and reading of decimals", "why_tests_cant": "an access outside and an invalid <cctype> call are undefined behaviour that usually has no visible effect, and the texts that could provoke one are unbounded", "anchors": ["include/symxx/parser.hpp: get_token, parse_a_number, get_all_tokens", "include/symxx/cli.hpp: cmd_func, cmd_constant, cmd_call, mainloop", "include/symxx/huge.hpp: Huge(const std::string &)"]}
{"id": "C83", "title": "Loops that change a container while walking over it never leave it", "statement": "Poly::normalize merges like terms in place by erasing the second of each pair; Term::normalize erases symbols; Term::substitute and Term::operator*= look up, erase and insert entries of maps; the root normalisation compares each prime factor with the next; the double printer copies ranges of its digit buffer. In all of these, for every content of the containers, every iterator that is moved, dereferenced, erased or used as a bound lies inside its container (no iterator before the first or behind the end is formed, the end is never dereferenced or erased), the loop ends after at most one step per element plus one, and the result is the one the value-level properties (C33-C38, C29, C46-C47) speak about. The double printer relies on its digit buffer being non-empty, which holds for every positive finite double; of no digits it would form an iterator behind the end.", "quantifier": "all vectors of terms, all symbol maps and environments, all sorted factor lists, all digit buffers and exponents, all positive finite doubles", "why_tests_cant": "An iterator one past its bound is undefined behaviour that usually goes unnoticed; which step forms it depends on the contents (neighbouring equal terms at the end, all entries erased, empty containers), and tests sample few of these.", "anchors": ["include/symxx/frac.hpp: Poly::normalize, Term::normalize, Term::substitute, Term::operator*=", "include/symxx/num.hpp: decompose_radicand", "include/symxx/dtoa.hpp: prettify_string"]}
{"id": "C84", "title": "What the order of terms is", "statement": "For terms as the operations return them (positive denominators), a < b on Term holds exactly if the sums of exponents of a and b agree and a's coefficient is the smaller number, or a's sum of exponents is not 0 and b's is. This is irreflexive, asymmetric and transitive, but no strict weak ordering: terms of two different non-zero degrees are never ordered (the comparison of the degrees is never reached), so x^2 is level with x and with 2x although x < 2x, and sorting by it is undefined. A term with symbols comes before every number, and x/y counts as a number.", "quantifier": "all pairs and triples of terms with well-formed coefficients and exponents", "why_tests_cant": "Being an order is a statement about all pairs and triples of terms.", "anchors": ["include/symxx/frac.hpp: Term::operator<"]}
{"id": "C85", "title": "Powers of Huge", "statement": "Huge::pow is unfinished: whatever base and exponent, it returns 0, which is the power (for exponents not below 0) exactly if the base is 0 and the exponent positive. The helper digits_pow it was meant to call gives the power of the magnitudes exactly if the exponent is 0 or the base is 0 or 1; for the exponent 1 it returns the exponent instead of the base.", "quantifier": "all canonical Huge numbers as base and exponent", "why_tests_cant": "The characterisation ranges over all numbers of any size.", "anchors": ["include/symxx/huge.hpp: Huge::pow, digits_pow"]}
{"id": "C86", "title": "Double arithmetic inside expressions", "statement": "Parsing a text, simplifying, substituting and printing an expression, and every history of Frac operations (numbers, names, + - * /, negation, inverse, powers, substitution), give with the machine's double arithmetic (std::pow any faithful function) the same result or the same exception as the exact models wherever those say what happens; so the results have the right value there. Parsing never computes a double at all, and neither does any history, simplification or printing of expressions whose numbers contain no root and that take no power: there the machine does exactly what the exact model does, undefined behaviour included, for coefficients of any size, and every result it gives has the right value. Polynomial expressions (C70) whose weight fits the integer type and is at most 2^53 are simplified and printed with doubles without an exception or undefined behaviour, two of them give the same text exactly if they have the same values, and the answer to the answer is the answer (C78). A power above 2^53 is a different matter: the text 3^34 is printed as 16677181699666568 without any error.", "quantifier": "all texts, expressions, substitutions, histories, integer widths, faithful std::pow, factorisation results and std::sort behaviours (agreeing between the two machines; insertion sort is shown to)", "why_tests_cant": "the rounding happens at single values of the coefficients, and where it cannot happen is a statement about every expression", "anchors": ["include/symxx/frac.hpp: Term, Poly, Frac", "include/symxx/expr.hpp: ExprNode::normalize, substitute, to_string, to_tex", "include/symxx/parser.hpp: Parser", "include/symxx/num.hpp: Real", "include/symxx/int_adapter.hpp: adapter_pow"]}
{"id": "C87", "title": "Sessions with double arithmetic", "statement": "A session at the command line (any input, any number of rounds, any functions and constants) run with the machine's double arithmetic prints the same text, ends the same way (goes on with the same error message, quits, lets the same exception escape) and leaves the same functions and constants as with exact arithmetic, unless the exact session has run into undefined behaviour; the same holds of each single line and of the members the program starts with. The command tex never computes a double, and normalize, ntex and factor do not on a text without '^', '**' and '_': there the commands do exactly what they do in the exact model, undefined behaviour included, whatever std::pow is. Where the exact model has undefined behaviour the program prints a wrong number without an error: the line 3^34 is answered with 16677181699666568.", "quantifier": "all inputs, numbers of rounds, lines, members, integer widths, long double operations, faithful std::pow, factorisation results and std::sort behaviours that agree between the two machines", "why_tests_cant": "the statement is about all sessions; a test sees the rounding only at the powers it happens to try", "anchors": ["include/symxx/cli.hpp: BasicCLI::mainloop, cmd_normalize, cmd_tex, cmd_ntex, cmd_factor, cmd_func, cmd_print, cmd_call, print_result", "include/symxx/expr.hpp: ExprNode", "include/symxx/parser.hpp: ExprParser", "include/symxx/int_adapter.hpp: adapter_pow"]}
{"id": "C88", "title": "The built-in function fib", "statement": "The program starts with a function fib(n) whose body is Binet's formula. Entering fib(n) for an integer n >= 0 whose factorial is representable, while fib has not been redefined, either does not complete (an error, or undefined behaviour such as an integer overflow in an intermediate power) or prints a number whose value is exactly the n-th Fibonacci number, with exact arithmetic and, where that is defined, with the machine's doubles. It does not get far: in 64 bits fib(10) prints 55, and fib(11) and fib(20) are signed overflows.", "quantifier": "all n >= 0 with n! representable, all integer widths, factorisation results, sort behaviours, argument texts that read as n, and all other members of the session", "why_tests_cant": "the formula goes through square roots, an n-fold multinomial expansion and two cancellations; that it is exact for every n and never prints a wrong Fibonacci number is an induction, not a list of cases", "anchors": ["include/symxx/cli.hpp: BasicCLI (funcs: fib), cmd_call, print_result", "include/symxx/expr.hpp: ExprNode::substitute, ExprNode::normalize", "include/symxx/frac.hpp: Poly::pow, Frac::pow"]}
{"id": "C89", "title": "Fractional powers of negative numbers", "statement": "Real::pow of a negative number a (negative numerator, positive denominator) to a fraction p in lowest terms with a denominator above 1: if the numerator of p is even and the call completes, the result is |a|^p exactly, in normal form, the same number the opposite base gives; if the numerator is odd, the call completes only when p is negative, its denominator is even and the numerator of a is not -1, so no root of a negative number is ever computed, and no Real with a zero or negative integer radicand is ever made. The excepted case is a defect: -4 to the power -1/2 returns the rational number -1/2 (printed 1/-2), or something else if the element read at begin() of an empty std::map is not 0, and the line (-4)^(-1/2)+1/2 prints 0/-1.", "quantifier": "every word size, factorisation environment, negative number in good form, exponent in lowest terms whose denominator times the index is representable, and every completed run", "why_tests_cant": "All negative bases, all exponents and all index sizes; which of them complete depends on signs that travel through inverse, negate, pow and the radicand's normalisation.", "anchors": ["include/symxx/num.hpp: Real::pow (469-491)", "include/symxx/num.hpp: Real::inverse (609-615)", "include/symxx/num.hpp: Real::normalize (538-597)", "include/symxx/num.hpp: Rational::pow (219-229)"]}
{"id": "C90", "title": "Rational from any text with a dot", "statement": "Rational<T>(text) for a text that contains a dot goes through std::stold: leading whitespace is skipped, a sign, digits with at most one dot and an exponent are read, and whatever follows is ignored, so the result is that of the number alone. A decimal m/10^k (k least, moderately many digits) is read as n/10^k with n = m or m - 1, with n = m for integers, one decimal place and dyadic fractions, also when an exponent is what makes it an integer; magnitudes of 2^emax and more, and tiny ones, throw 'The number is out of range.'. 'Invaild string.' is thrown exactly by the texts that begin (after whitespace and sign) with no digit, no dot and digit, no inf and no nan; inf and nan are converted to an integer, which is undefined. Hexadecimal numbers (0x, digits with a dot, an exponent of two after p) are read in the same way, with the same exactness and the same report of magnitudes of 2^emax and more. Texts of digits and dots are read as in C65. Two defects follow: a fraction whose denominator has a dot is read as its numerator ('1/2.5' is 1), and an exponent counts only if there is a dot somewhere ('1e3' is 1, '1.e3' is 1000).", "quantifier": "every text, integer width and floating-point format", "why_tests_cant": "All texts of any length, including what comes before and after the number, and all exponents.", "anchors": ["include/symxx/num.hpp: Rational(const std::string &) (127-159)", "include/symxx/num.hpp: Rational(long double) (101-125)", "include/symxx/num.hpp: decimal_places, round_decplaces (32-56)"]}
