{"C02": {"note": "the documented nonnegativity is refuted for operands of opposite sign"}, "C03": {"note": "exponents are taken modulo 2^32"}, "C57": {"note": "correct on square matrices; refuted otherwise"}, "C60": {"note": "under the condition that the count fits usize; the empty value list with n*m = 0, overflow and exponent truncation are stated separately"}, "C64": {"note": "x, y, z agree; w, u, v do not: names_agree is refuted"}, "C76": {"note": "completeness off the first generator proved; general completeness, properness and distinctness refuted"}, "C78": {"note": "the transformation p is refuted to be representation independent"}, "C99": {"note": "is_zero and termination of divide are refuted for such polynomials"}, "C101": {"note": "completeness of checked_sub and is_succ, RevLex, GRevLex and division are refuted for such vectors"}, "C102": {"note": "exactness without a condition on the first generator is refuted"}, "C143": {"note": "Release arithmetic of the exponents with exact coefficients; the loop is shown with release arithmetic of the coefficients as well"}}