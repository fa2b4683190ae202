-Q theories Verif
theories/Spec.v
theories/PyBase.v
theories/M_util.v
theories/Spec_util.v
theories/M_cvrp_ops.v
theories/M_routedata.v
theories/P_base.v
theories/P_validate.v
theories/P_cvrp.v
theories/P_util.v
theories/P_rd.v
theories/P_core.v
theories/T_core.v
theories/Spec_ls.v
theories/M_intra.v
theories/P_scan.v
theories/P_intra.v
theories/P_intra2.v
theories/T_intra.v
theories/Spec_inter.v
theories/M_inter.v
theories/P_inter.v
theories/P_inter2.v
theories/P_inter3.v
theories/T_inter.v
theories/M_driver.v
theories/Spec_driver.v
theories/P_driver.v
theories/P_driver2.v
theories/P_driver3.v
theories/T_driver.v
theories/Spec_savings.v
theories/M_psavings.v
theories/P_psavings.v
theories/P_psavings2.v
theories/T_psavings.v
theories/M_ssavings.v
theories/P_ssavings.v
theories/P_ssavings2.v
theories/T_ssavings.v
theories/M_savfam.v
theories/P_savfam.v
theories/P_savfam2.v
theories/T_savfam.v
theories/Spec_lr3opt.v
theories/M_lr3opt.v
theories/P_lr3opt.v
theories/T_lr3opt.v
theories/Spec_3optstar.v
theories/M_3optstar.v
theories/P_3optstar.v
theories/P_3optstar2.v
theories/P_3optstar3.v
theories/P_3optstar4.v
theories/P_3optstar5.v
theories/P_3optstar6.v
theories/P_3optstar7.v
theories/T_3optstar.v
theories/M_text.v
theories/M_io.v
theories/Spec_io.v
theories/P_text.v
theories/P_io.v
theories/P_io2.v
theories/P_io3.v
theories/P_io4.v
theories/P_io5.v
theories/P_io6.v
theories/P_io7.v
theories/T_io.v
theories/Spec_nn.v
theories/M_nn.v
theories/P_nn.v
theories/P_nn2.v
theories/P_nn3.v
theories/T_nn.v
theories/Spec_rfcs.v
theories/M_rfcs.v
theories/P_rfcs.v
theories/P_rfcs2.v
theories/P_rfcs3.v
theories/T_rfcs.v
theories/Spec_cins.v
theories/M_cins.v
theories/Spec_cins2.v
theories/P_cins.v
theories/P_cins2.v
theories/P_cins3.v
theories/P_cins4.v
theories/P_cins5.v
theories/P_cins6.v
theories/T_cins.v
theories/M_mj.v
theories/P_mj.v
theories/P_mj2.v
theories/P_mj3.v
theories/T_mj.v
theories/Spec_sweep.v
theories/M_sweep.v
theories/P_sweep.v
theories/P_sweep2.v
theories/P_sweep3.v
theories/P_sweep4.v
theories/P_sweep5.v
theories/P_sweep6.v
theories/T_sweep.v
theories/M_lr3opt2.v
theories/P_lr3opt2.v
theories/P_lr3opt3.v
theories/P_lr3opt4.v
theories/P_lr3opt5.v
theories/P_lr3opt6.v
theories/T_lr3opt2.v
theories/Spec_savfam.v
theories/P_savfam3.v
theories/Spec_tyagi.v
theories/M_tyagi.v
theories/P_tyagi.v
theories/P_tyagi2.v
theories/P_tyagi3.v
theories/P_tyagi4.v
theories/T_tyagi.v
theories/Spec_mj.v
theories/P_mj4.v
theories/Spec_gm.v
theories/M_gm.v
theories/P_gm.v
theories/P_gm2.v
theories/P_gm3.v
theories/P_gm4.v
theories/P_gm5.v
theories/P_gm6.v
theories/P_gm7.v
theories/T_gm.v
theories/Spec_mbsa.v
theories/M_mbsa.v
theories/P_mbsa.v
theories/P_mbsa2.v
theories/P_mbsa3.v
theories/P_mbsa4.v
theories/P_mbsa5.v
theories/P_mbsa6.v
theories/T_mbsa.v
theories/Spec_petal.v
theories/M_petal.v
theories/P_petal.v
theories/P_petal2.v
theories/P_petal3.v
theories/P_petal4.v
theories/P_petal5.v
theories/P_petal6.v
theories/P_petal7.v
theories/P_petal8.v
theories/P_petal9.v
theories/P_petal10.v
theories/T_petal.v
theories/M_cli.v
theories/Spec_cli.v
theories/P_cli.v
theories/P_cli2.v
theories/P_cli3.v
theories/M_cli2.v
theories/Spec_cli2.v
theories/P_cli4.v
theories/P_cli5.v
theories/T_cli.v
theories/Spec_cmt.v
theories/M_cmt.v
theories/P_cmt.v
theories/P_cmt2.v
theories/P_cmt3.v
theories/P_cmt4.v
theories/P_cmt5.v
theories/T_cmt.v
theories/M_wh.v
theories/Spec_wh.v
theories/P_wh.v
theories/P_wh2.v
theories/P_wh3.v
theories/P_wh4.v
theories/P_wh5.v
theories/P_wh6.v
theories/P_wh7.v
theories/P_wh8.v
theories/P_wh9.v
theories/T_wh.v
theories/M_gap.v
theories/Spec_gap.v
theories/P_gap.v
theories/P_gap2.v
theories/P_gap3.v
theories/P_gap4.v
theories/P_gap5.v
theories/P_gap6.v
theories/T_gap.v
theories/Spec_tspg.v
theories/M_tspg.v
theories/P_tspg.v
theories/P_tspg2.v
theories/P_tspg3.v
theories/P_tspg4.v
theories/M_tspx.v
theories/Spec_tspx.v
theories/P_tspx.v
theories/P_tspx2.v
theories/P_tspx3.v
theories/P_tspx4.v
theories/P_tspx5.v
theories/T_tsp.v
theories/P_petal11.v
theories/M_naive.v
theories/Spec_naive.v
theories/P_naive.v
theories/P_naive2.v
theories/P_naive3.v
theories/P_naive4.v
theories/P_naive5.v
theories/T_naive.v
theories/Spec_all.v
theories/P_all.v
theories/T_all.v
theories/Spec_savint.v
theories/M_savint.v
theories/P_savint.v
theories/P_savint2.v
theories/P_savint3.v
theories/T_savint.v
theories/Spec_dist.v
theories/M_dist.v
theories/P_dist.v
theories/P_dist2.v
theories/T_dist.v
theories/M_pnn.v
theories/Spec_pnn.v
theories/P_pnn.v
theories/T_pnn.v
theories/M_stats.v
theories/Spec_stats.v
theories/P_stats.v
theories/T_stats.v
theories/M_polar.v
theories/Spec_polar.v
theories/P_polar.v
theories/P_polar2.v
theories/T_polar.v
theories/M_seeds.v
theories/Spec_seeds.v
theories/P_seeds.v
theories/T_seeds.v
theories/P_seeds2.v
theories/T_seeds2.v
theories/M_cones.v
theories/Spec_cones.v
theories/P_cones.v
theories/P_cones2.v
theories/T_cones.v
theories/P_cones3.v
theories/M_whstart.v
theories/Spec_whstart.v
theories/P_whstart.v
theories/P_whstart2.v
theories/T_whstart.v
theories/M_cmd.v
theories/Spec_cmd.v
theories/P_cmd.v
theories/P_cmd2.v
theories/P_cmd3.v
theories/T_cmd.v
theories/M_table.v
theories/Spec_table.v
theories/P_table.v
theories/P_table2.v
theories/T_table.v
theories/Spec_end.v
theories/P_end.v
theories/T_end.v
theories/M_algos.v
theories/Spec_algos.v
theories/P_fuel.v
theories/P_algos.v
theories/P_algos2.v
theories/T_algos.v
theories/P_lr3opt7.v
theories/M_lr3opt3.v
theories/Spec_lr3opt2.v
theories/P_lr3opt8.v
theories/T_lr3opt3.v
theories/P_cmt6.v
theories/P_gap7.v
theories/M_algos2.v
theories/P_algos3.v
theories/T_algos2.v
theories/M_algos3.v
theories/Spec_algos3.v
theories/P_algos4.v
theories/T_algos3.v
theories/Spec_coord.v
theories/M_breedam.v
theories/P_coord.v
theories/P_coord2.v
theories/T_coord.v
theories/M_dict.v
theories/Spec_dict.v
theories/P_dict.v
theories/T_dict.v
theories/M_single.v
theories/P_single.v
theories/T_single.v
theories/Spec_header.v
theories/P_header.v
theories/T_header.v
theories/Spec_crit.v
theories/P_crit.v
theories/T_crit.v
theories/P_rank.v
theories/T_rank.v
theories/Spec_units.v
theories/P_units.v
theories/P_units2.v
theories/T_units.v
theories/Spec_feas.v
theories/P_feas.v
theories/T_feas.v
theories/P_feas2.v
theories/Spec_mbties.v
theories/P_mbties.v
theories/T_mbties.v
theories/P_feas3.v
