NOTES['C05'] = ('proved', 'up to 255 bells; at 256 bells the property is refuted (C05_256_refuted)')
NOTES['C13'] = ('proved', 'proved wherever it holds: every int exponent but INT_MIN on at most 18 bells, |n| <= bells^2 on more; refuted beyond: from 19 bells a reachable exponent recurses forever, INT_MIN is signed overflow')
NOTES['C11'] = ('proved', 'order always returns on at most 58 bells; on more it is right whenever it returns; overflow exhibited on 129 bells')
NOTES['C21'] = ('proved', 'nth_row_of_extent up to 13 working bells, position_in_extent up to 20; beyond that refuted (C21_wraps_refuted)')
NOTES['C23'] = ('proved', 'decrementing the end iterator is refuted: it is at the last row but still compares equal to end (C23_back_from_end_refuted)')
NOTES['C26'] = ('proved', 'right labels: for rows on the number of bells of the group, and groups of fewer than 109641728 rows or with orbits of at most 12 bells (32-bit factorials); refuted for rows on another number of bells (C26_other_bells_refuted)')
NOTES['C27'] = ('proved', 'conjugating by a row on more bells than the group is outside the statement (the object then has rows on more bells than it says)')
NOTES['C28'] = ('proved', 'Proved for all row sets closed under the groups and all histories of columns, with the C++ assert as an outcome. A product that is not in the set silently gives index 0 (C28_plain). Refuted parts: a repeated row makes the square table read out of range, and with a post group whose cosets are only partly present a product can land in another coset (C28_refuted).')
NOTES['C17'] = ('proved', 'up to 255 bells; the terminating NUL is what *last reads')
NOTES['C18'] = ('proved', 'refuted for the empty method with M_OMIT_LH (C18_empty_refuted)')
NOTES['C19'] = ('proved', 'bell versions for hunt bells; an odd length is a failed assertion there, and the empty method is undefined (C19_empty_refuted)')
NOTES['C20'] = ('proved', 'leads always returns on at most 58 bells; on more it is right whenever it returns')
NOTES['C45'] = ('proved', 'a method with no places gets maxblows -1 rather than 1 (C45_maxblows_none_refuted)')
NOTES['C32'] = ('proved', 'tables of whole leads; half_lead_only given with methods is shown to compare only a quarter of each lead and so to miss falseness (C32_half_lead, C32_half_lead_refuted); a method of one change with that flag is outside the statement; symbols of falseness groups are not modelled')
NOTES['C33'] = ('proved', 'when the treble is the only hunt bell and the others form one cycle; without that the constructor can loop forever (C33_diverges_refuted)')
NOTES['C27'] = ('proved', 'conjugating by a row on more bells than the group is outside the statement (the object then has rows on more bells than it says); dihedral_r on an even number of working bells is shown to be only the cyclic group, against the header (C27_dihedral_r_even_refuted)')
NOTES['C38'] = ('proved', 'for the patterns named in the statement; outside it refuted: a leading * before all the bells never matches, a short run between *s is missed far from the front (b > 2n+4), [55] and *?* count a row several times, a pattern longer than the rows matches with a byte read past the row, clear keeps its entries, set_bells does not rebuild the tree (C38_refuted_*)')
NOTES['C39'] = ('proved', 'for the patterns named in the statement; outside it refuted: *[345]* and *?* (only pairwise overlaps are subtracted), patterns longer than the rows, a bell named twice, a choice named later, a bell spelt in two ways (C39_refuted_*)')
NOTES['C36'] = ('proved', 'refuted outside the hypotheses: a lead with a repeated row gives false touches, so does a method whose treble does not lead at the lead end (only false lead heads fixing the treble are looked for), touches of a one-change method cannot be iterated over, an empty method is undefined (C36_refuted_*)')
NOTES['C37'] = ('proved', 'that each touch is given once (or once up to rotation) is not claimed: Plain Bob Minor with bobs and singles refutes it (C37_refuted_twice, C37_refuted_rotations)')
NOTES['C46'] = ('proved', 'leads of fewer than 512 changes; longer ones wrap the char counters (C46_long_refuted), one bell before 2019 reads past the lead head (C46_one_bell_refuted), and cross sections are counted from the start of the lead, so the same method started a change later changes class (C46_rotation_refuted)')
NOTES['C44'] = ('proved', 'n up to 119; for larger n the value cannot fit the 32-bit result (C44_overflow). C44_landau and C44_full take any bound on the primes; C44_code shows that the bound the code computes, up to a floating-point error of 1/100, is enough (this one uses the axioms of the real numbers)')

NOTES['C49'] = ('proved', 'a method on no bells is undefined behaviour (C49_empty_ub)')
NOTES['C50'] = ('proved', 'the old constructor without a range gives no touches at all and the one with a range reads an uninitialised member; a range in changes for a method without changes divides by zero (C50_refuted_*)')
NOTES['C51'] = ('proved', 'that every touch given is true in all its parts is refuted: a lead after the first that meets itself in another part goes unnoticed, odd part ends of even leads are not looked at when mutual truth is enough, part ends on fewer bells than the method escape the check (C51_refuted_*)')
NOTES['C52'] = ('proved', 'stages of more than seven digits are cut off (C52_stagename_refuted), and the title does not tell the name apart from the class words (C52_name_refuted); a class code with no class is an out-of-range table index (C52_classname_ub)')
NOTES['C53'] = ('proved', 'refuted for Treble Bob and Treble Place ("Treble" is left in the name), for little hybrids, for names with the stage word in them; a title without a name reads before the beginning of a string (C53_*_refuted)')
NOTES['C54'] = ('proved', 'a file with a byte order mark cannot be read because the file is rewound in front of it (C54_file_bom_refuted); a blank CRLF line is an entry (C54_crlf_refuted)')
NOTES['C55'] = ('proved', 'a blank line in a file with carriage returns ends the library (C55_crlf_refuted); the number in the file name is not used, so that without a header there are 0 bells (C55_no_header_refuted)')
NOTES['C56'] = ('proved', 'clear during a loop is undefined (C56_clear_ub); append of a range gives the number given, not the number that came in (C56_range_refuted); methods without changes on different bells are one (C56_empty_refuted)')
NOTES['C57'] = ('proved', 'an empty directory in the path is taken as the root (C57_root_refuted); an entry with bad place notation hides those after it from find (C57_hidden_refuted)')
NOTES['C58'] = ('proved', 'a break outside all loops ends the proof without a verdict and without failure (C58_break_refuted)')
NOTES['C60'] = ('proved', 'rounds given on fewer bells than the number of bells never comes round (C60_short_rounds)')
NOTES['C63'] = ('proved', 'the count goes up by two for each node and is compared for equality, so that an odd limit stops nothing (C63_odd_refuted); looking for the type of a symbol is not counted and need not end (C63_type_refuted)')

NOTES['C64'] = ('proved', 'an empty first alternative is kept and always taken, so that { ; a } does nothing (C64_empty_first)')
NOTES['C65'] = ('proved', 'after echo, save, ++ and -- and their argument anything without operators is accepted and ignored, even unmatched brackets (C65_lax_refuted, C65_ignored_refuted)')
NOTES['C67'] = ('proved', '10 - 3 - 2 is 9 (C67_minus_refuted); 4294967295 x repeats x for ever (C67_number_refuted)')
NOTES['C68'] = ('proved', '20/2/5 is read as 20 and 5 with the pattern 2 between them (C68_divide_twice_refuted); n +1 is read as place notation (C68_plus_refuted)')
NOTES['C69'] = ('proved', 'a script with an unreadable line can never be got past that line: every request for a command fails at the same token (C69_stuck), so that an interactive session repeats the error for ever')
NOTES['C70'] = ('proved', 'the range form of rows, as in 5000 to 5100 rows, is always refused (C70_rows_range_refuted); six names cannot be defined (C70_reserved); a string of the letters end ends the script (C70_end_string_refuted)')
NOTES['C71'] = ('proved', 'a proof which is stopped by break outside all loops does not count as a failure (see C58_break_refuted)')
NOTES['C72'] = ('proved', 'a touch that is defined twice is proved by default as it was defined first (C72_first_stale_refuted)')
NOTES['C73'] = ('proved', 'an import for fewer bells loses the rounds in force (C73_import_rounds_refuted)')
NOTES['C74'] = ('proved', 'end inside a block dereferences a null pointer when it is reached (C74_end_in_block_refuted)')
NOTES['C76'] = ('proved', '{-2147483648} overflows, {257} is the treble and a range may not end after the 33rd bell (C76_braces_refuted)')
NOTES['C77'] = ('proved', '~ does not undo a transposition (C77_reverse_refuted); ranges and {N} are not for transpositions (C77_ranges_refuted)')
NOTES['C78'] = ('proved', 'for the pattern language of the library as specified for music: small letters are refused though they name bells elsewhere (C78_case_refuted)')
NOTES['C80'] = ('proved', 'for expressions in which the left operand of an operator between two sets can be gone through again; otherwise rows are lost: sets inside sets (C80_nested_refuted), conjugates by a set (C80_conjugates_refuted); and a difference of single rows ends the set it is in (C80_difference_refuted)')
NOTES['C81'] = ('proved', 'the parser has code for negative exponents, but no text reaches it with success (C81_negative): a^-1 is read as a difference and refused (C81_refused). Texts with $( or <( (rows from a command or a file) are not modelled.')
NOTES['C82'] = ('proved', 'the first test asserts that the treble plain hunts: for other methods it stops the program (C82_not_plain), though the search that uses it does not check.')
NOTES['C83'] = ('proved', 'the number of bells is said to be required, but without it one empty line is written (C83_no_bells).')
NOTES['C84'] = ('proved', 'for an odd number of changes methods without rotational symmetry are given an R (C84_rotational_wrong has one for every odd length), and a method without changes is a division by zero (C84_empty).')
NOTES['C85'] = ('proved', 'for one part, with most tests of a change and of a whole method as parameters (any functions of what they look at). Found: an inverted filter lets one method too many or wrongly through when the limit is met, and then has no limit (C85_inverted_limit_refuted); with all three symmetries and no hunt bells methods without any palindromic symmetry are found (C85_three_symmetries_refuted); a start row together with a symmetry ends in an exception (C85_start_row_refuted); without a start row a lead that comes to rounds is taken to be true (C85_rounds_refuted); in palindromic methods with no hunt bells, or two, a bell can stay in a place for more blows than the limit (C85_blows_refuted).')
NOTES['C86'] = ('proved', 'for whole leads, with or without -i; a pivot bell reported for (n-2)!/4 leads without -i is not covered, nor two bells reported without -i. Odd numbers of leads are rounded down, so a splice reported as of one lead may be left out when splices of one lead are asked for (C86_odd_numbers_refuted); and with -l for another number the filter lets methods with lead splices through, though the code means to keep those (C86_filter_for_another_number_refuted). For half leads see C32_half_lead_refuted.')
NOTES['C87'] = ('proved', 'for lead heads with the hunt bells at home. The test of regular half lead heads keeps the lead head of the first number of bells it is called for: after that it refuses some on other numbers (C87_second_stage_refuted), which one run of the program does not meet.')
NOTES['C88'] = ('proved', 'the test of a division looks at nothing before its fourth change, so three changes that lead back to a row of it pass (C88_short_division_refuted); with a place above the 33rd two changes cannot be compared (C88_many_bells_refuted).')
NOTES['C89'] = ('proved', 'apps/methsearch/prog_args.cpp:727 writes !hunt_bells == 1 for hunt_bells != 1, so regular half leads with another number of hunt bells are not refused there; the option parser is not modelled here.')
